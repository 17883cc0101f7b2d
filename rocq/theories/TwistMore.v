(** Twisted Weyl groups: the dual twist, orbits of generators *)

From Coq Require Import List Arith ZArith Lia Bool Setoid Morphisms.
From Verif Require Import VecModel VecProofs RunModel RunProofs MatSpec MatLin WeylModel WeylSpec TwistSpec WeylTable WeylCheck WeylExchange WeylGroup WeylOps WeylMore WeylMake WeylExt WeylSign TwistWords TwistOrbit TwistProofs TwistModel.
Import ListNotations.
Open Scope nat_scope.

Section More.
Variables (n : nat) (A : nat -> nat -> Z) (comps : list component) (W : weyl_group).
Hypothesis D : describes n A comps.
Hypothesis RM : n <= rank_max.
Hypothesis MK : make_weyl n comps = Ok W.
Notation "u ~ v" := (same n (coxeter A) u v) (at level 70).
Notation X := (X n A comps W).
Notation L w := (length (ev n (off comps) W w)).
Notation ell := (ellx n comps W).
Notation ELL := (ELLx n A comps W D RM MK).
Notation CL := (Cart n A comps W D RM MK).
Notation eqw := (eqx W).
Notation EQW := (EQX n A comps W D RM MK).
Notation rw := (root_word n A).
Notation E_same := (ell_same n (coxeter A) ell ELL).
Notation E_cons := (ell_cons n (coxeter A) ell ELL).
Notation ell_X := (ell_X n A comps W D RM MK).
Local Instance same_equiv2 : Equivalence (same n (coxeter A)).
Proof. split; [intros u; apply same_refl|intros u v; apply same_sym|intros u v w; apply same_trans]. Qed.
Local Instance cons_same2 : Proper (eq ==> same n (coxeter A) ==> same n (coxeter A)) cons.
Proof. intros s ? <- u v E. now apply same_cons. Qed.
Local Instance app_same2 : Proper (same n (coxeter A) ==> same n (coxeter A) ==> same n (coxeter A)) (@app nat).
Proof. intros u u' E v v' E'. now apply same_app. Qed.

Lemma rw_minus u s t : over n u -> (forall j, j < n -> rw u (simple_root s) j = (-1 * simple_root t j)%Z) -> t < n -> forall i, pairing n A (rw u (simple_root s)) i = (- A t i)%Z.
Proof.
  intros O E Ht i. rewrite (pair_ext n A _ (fun j => -1 * simple_root t j)%Z) by auto. unfold pairing. rewrite (zsum_one n t); [|auto|].
  - unfold simple_root. rewrite Nat.eqb_refl. lia.
  - intros k _ N. unfold simple_root. destruct (Nat.eqb_spec k t); [congruence|lia].
Qed.

Section Long.
Variables (w0 u0 : list nat).
Hypothesis TOP : top n W w0.
Hypothesis X0 : X w0 u0.
Lemma O0 : over n u0.
Proof. apply X0. Qed.
Lemma sq0 : u0 ++ u0 ~ [].
Proof. now apply (top_square n A comps W D RM MK w0). Qed.
Lemma top_down s : s < n -> ell (s :: u0) < ell u0.
Proof.
  intros Hs. pose proof O0 as O. assert (O1 : over n (s :: u0)) by now apply over_cons. destruct (X_el n A comps W D RM MK (s :: u0) O1) as (w & H).
  destruct (top_max n A comps W D RM MK w0 TOP w (X_valid n A comps W w _ H)) as [Q _]. rewrite (ell_X _ _ X0), (ell_X _ _ H) in Q. destruct (E_cons s u0 Hs O); lia.
Qed.
Lemma unique0 u : over n u -> ell u = ell u0 -> u ~ u0.
Proof.
  intros O E. destruct (X_el n A comps W D RM MK u O) as (w & H). destruct (top_max n A comps W D RM MK w0 TOP w (X_valid n A comps W w _ H)) as [_ Q].
  rewrite (ell_X _ _ X0), (ell_X _ _ H) in Q. specialize (Q E). subst w. now apply (X_eq n A comps W D RM MK w0).
Qed.
Lemma cross0 s c : s < n -> c < n -> u0 ++ [s] ++ u0 ~ [c] -> s :: u0 ~ u0 ++ [c].
Proof.
  intros Hs Hc E. change (s :: u0) with ([] ++ [s] ++ u0). rewrite <- sq0 at 1. rewrite <- app_assoc. now rewrite E.
Qed.
Lemma dual_matrix s c t e : s < n -> c < n -> t < n -> e < n -> u0 ++ [s] ++ u0 ~ [c] -> u0 ++ [t] ++ u0 ~ [e] -> A c e = A s t.
Proof.
  intros Hs Hc Ht He E1 E2. destruct CL as [DG _]. pose proof O0 as O.
  pose proof (fun j => carried n A CL ell ELL u0 s c Hs Hc O (cross0 s c Hs Hc E1) j) as K1. rewrite (proj2 (Nat.ltb_lt _ _) (top_down s Hs)) in K1.
  pose proof (fun j => carried n A CL ell ELL u0 t e Ht He O (cross0 t e Ht He E2) j) as K2. rewrite (proj2 (Nat.ltb_lt _ _) (top_down t Ht)) in K2.
  pose proof (rw_same n A CL (t :: u0) (u0 ++ [e]) (cross0 t e Ht He E2) ltac:(now apply over_cons) (simple_root s) e He) as Q.
  rewrite rw_app, rw_cons in Q. cbn [root_word fold_left] in Q. rewrite rr_at, Nat.eqb_refl in Q. rewrite (rw_minus u0 s c O K1 Hc) in Q. rewrite (K1 e He) in Q.
  rewrite (rw_ext n A u0 O _ (fun k => 1 * simple_root s k + (- A s t) * simple_root t k)%Z) in Q; [|intros j Hj|auto].
  - rewrite (rw_lin n A u0 O) in Q by auto. rewrite (K1 e He), (K2 e He) in Q. unfold simple_root in Q. rewrite (Nat.eqb_refl e) in Q. lia.
  - rewrite rr_at. unfold pairing. rewrite (zsum_one n s); [|auto|].
    + unfold simple_root. rewrite Nat.eqb_refl. destruct (j =? t); lia.
    + intros k _ N. unfold simple_root. destruct (Nat.eqb_spec k s); [congruence|lia].
Qed.
End Long.

Variable f : list nat.
Hypothesis TW : twist_of n A f.
Notation fs s := (nth s f 0).
Notation d u := (relabel f u).
Notation TI u := (twisted_involution n A f u).
Notation comm := (comm n A f).
Notation fs_lt := (fs_lt n A f TW).

Section Dual.
Variables (w0 u0 : list nat).
Hypothesis TOP : top n W w0.
Hypothesis X0 : X w0 u0.
Lemma d_top : d u0 ~ u0.
Proof. apply (unique0 w0 u0 TOP X0); [apply (d_over n A f TW), X0|]. apply (d_ell n A f TW ell ELL), X0. Qed.
Lemma dual_gen_X s : s < n -> exists t, t < n /\ u0 ++ [fs s] ++ u0 ~ [t] /\ dual_twisted_gen W f s = Ok t.
Proof.
  intros Hs. unfold dual_twisted_gen. rewrite (tw_get n A RM f TW s Hs). cbn [bind]. destruct (Chevalley_dual_X n A comps W D RM MK w0 u0 (fs s) TOP X0 (fs_lt s Hs)) as (t & Ht & E & Q).
  exists t. rewrite Q. auto.
Qed.
Lemma dual_twist_X : exists g, dual_twist W f = Ok g /\ twist_of n A g /\ forall s, s < n -> u0 ++ [fs s] ++ u0 ~ [nth s g 0].
Proof.
  set (G := fun s => match dual_twisted_gen W f s with Ok t => t | Fail _ => 0 end).
  assert (GS : forall s, s < n -> G s < n /\ u0 ++ [fs s] ++ u0 ~ [G s] /\ dual_twisted_gen W f s = Ok (G s)).
  { intros s Hs. destruct (dual_gen_X s Hs) as (t & Ht & E & Q). unfold G. rewrite Q. auto. }
  exists (map G (seq 0 n)). assert (NG : forall s, s < n -> nth s (map G (seq 0 n)) 0 = G s).
  { intros s Hs. rewrite (nth_indep _ 0 (G 0)) by (rewrite map_length, seq_length; auto). rewrite map_nth, seq_nth by auto. auto. }
  split; [|split].
  - unfold dual_twist. rewrite (rank_is n A comps W D RM MK). pose proof (make_row_ok 0 n (dual_twisted_gen W f) (fun i x => x = G i)) as M.
    assert (M' : gives (make_row n (dual_twisted_gen W f)) (fun l => length l = n /\ forall i, i < n -> nth i l 0 = G i) sure).
    { apply M. intros i Hi. destruct (GS i Hi) as (_ & _ & ->). reflexivity. }
    apply gives_sure in M'. destruct M' as (l & -> & LL & LN). f_equal. apply (nth_ext _ _ 0 0); [now rewrite map_length, seq_length|]. intros i Hi. rewrite LL in Hi. now rewrite LN, NG.
  - split; [now rewrite map_length, seq_length|]. split.
    + intros s Hs. rewrite !NG by (auto; apply GS; auto). destruct (GS s Hs) as (H1 & H2 & _). split; [auto|]. destruct (GS (G s) H1) as (H3 & H4 & _).
      apply (one_letter n A comps W D RM MK); auto. rewrite <- H4. apply (d_same n A f TW) in H2. unfold relabel in H2. rewrite !map_app in H2. cbn [map] in H2. rewrite (f_f n A f TW s Hs) in H2.
      pose proof d_top as DT. unfold relabel in DT. rewrite DT in H2. rewrite <- H2. rewrite <- !app_assoc. rewrite !(app_assoc u0 u0), !(sq0 w0 u0 TOP X0). reflexivity.
    + intros s t Hs Ht. rewrite !NG by auto. destruct (GS s Hs) as (H1 & H2 & _). destruct (GS t Ht) as (H3 & H4 & _).
      rewrite (dual_matrix w0 u0 TOP X0 (fs s) (G s) (fs t) (G t)); auto using fs_lt. now apply (f_A n A f TW).
  - intros s Hs. rewrite NG by auto. now apply GS.
Qed.
Lemma dual_word g : (forall s, s < n -> u0 ++ [fs s] ++ u0 ~ [nth s g 0]) -> forall u, over n u -> relabel g u ~ u0 ++ d u ++ u0.
Proof.
  intros GS u. induction u as [|s u IH]; intros O; [cbn; symmetry; apply (sq0 w0 u0 TOP X0)|]. apply over_cons in O. destruct O as [Hs O]. cbn [relabel map app].
  fold (relabel g u). rewrite (IH O). change (nth s g 0 :: u0 ++ d u ++ u0) with ([nth s g 0] ++ u0 ++ d u ++ u0). rewrite <- (GS s Hs). rewrite <- !app_assoc.
  rewrite (app_assoc u0 u0), (sq0 w0 u0 TOP X0). reflexivity.
Qed.
Lemma dual_TI g : (forall s, s < n -> u0 ++ [fs s] ++ u0 ~ [nth s g 0]) -> forall u, over n u -> (TI u <-> twisted_involution n A g (u ++ u0)).
Proof.
  intros GS u O. pose proof (O0 w0 u0 X0) as Oo. assert (OU : over n (u ++ u0)) by (apply over_app; auto).
  assert (Q : (u ++ u0) ++ relabel g (u ++ u0) ~ u ++ d u).
  { rewrite (dual_word g GS _ OU). unfold relabel. rewrite map_app. pose proof d_top as DT. unfold relabel in DT. rewrite DT. rewrite <- !app_assoc. rewrite !(app_assoc u0 u0), !(sq0 w0 u0 TOP X0).
    cbn [app]. rewrite app_nil_r. reflexivity. }
  split; intros [_ E]; (split; [auto|]); [now rewrite Q|now rewrite <- Q].
Qed.
End Dual.

(** *** orbits *)
Lemma cox_two s t : s < n -> t < n -> s <> t -> (s :: [t] ~ t :: [s] <-> coxeter A s t = 2).
Proof.
  intros Hs Ht N. split.
  - intros E. assert (L1 : forall x, x < n -> ell [] < ell [x]).
    { intros x Hx. destruct (E_cons x [] Hx (over_nil n)) as [Q|Q]; [lia|]. rewrite (ell_nil n (coxeter A) ell ELL) in Q. discriminate. }
    assert (GE : 2 <= coxeter A s t).
    { destruct CL as [_ F]. pose proof (F s t Hs Ht N) as P. unfold coxeter. unfold finite_pair in P. cbn in P.
      destruct P as [P|[P|[P|[P|[P|[P|[]]]]]]]; injection P as P1 P2; rewrite <- P1, <- P2; cbn; lia. }
    destruct (le_lt_dec 3 (coxeter A s t)) as [G3|]; [exfalso|lia].
    pose proof (min_add n A CL ell ELL 3 s t [] Hs Ht N (over_nil n) (L1 s Hs) (L1 t Ht) G3) as Q. rewrite (ell_nil n (coxeter A) ell ELL) in Q. cbn [alt app] in Q.
    assert (R : s :: t :: [s] ~ [t]) by (rewrite <- E; now apply undo). apply E_same in R; [|repeat (apply over_cons; split; auto); apply over_nil].
    pose proof (ell_le n (coxeter A) ell ELL [t] (over_one n t Ht)) as Q2. cbn [length] in Q2. lia.
  - intros E. pose proof (same_braid n (coxeter A) s t Hs Ht N) as B. rewrite E in B. exact B.
Qed.
Definition orbit_ok (g : ext_gen) : Prop :=
  e_s0 g < n /\ match e_type g with
  | one => fs (e_s0 g) = e_s0 g
  | two => fs (e_s0 g) = e_s1 g /\ e_s0 g < e_s1 g /\ coxeter A (e_s0 g) (e_s1 g) = 2
  | three => fs (e_s0 g) = e_s1 g /\ e_s0 g < e_s1 g /\ coxeter A (e_s0 g) (e_s1 g) = 3
  end.
Lemma orbits_X : gives (twist_orbits W f) (fun l => Forall orbit_ok l /\ map e_s0 l = filter (fun s => s <=? fs s) (seq 0 n)) sure.
Proof.
  unfold twist_orbits. rewrite (rank_is n A comps W D RM MK). eapply gives_imp; [|apply (gives_range (fun k l => Forall orbit_ok l /\ map e_s0 l = filter (fun s => s <=? fs s) (seq 0 k)))].
  - intros l P. exact P.
  - cbn. auto.
  - intros s l Hs [F E]. assert (Hn : s < n) by lia. rewrite (tw_get n A RM f TW s Hn). cbn [bind]. pose proof (fs_lt s Hn) as Ht.
    replace (S s) with (s + 1) by lia. rewrite seq_app, filter_app. cbn [seq filter Nat.add]. destruct (Nat.eqb_spec (fs s) s) as [E1|E1].
    + cbn [gives]. rewrite map_app, E. rewrite (proj2 (Nat.leb_le _ _)) by lia. split; [|reflexivity]. apply Forall_app. split; [auto|]. constructor; [|constructor]. split; auto.
    + destruct (Nat.ltb_spec s (fs s)) as [E2|E2].
      * destruct (commutes_X n A comps W D RM MK s (fs s) Hn Ht) as (b & Q & P). rewrite Q. cbn [bind gives]. rewrite map_app, E. rewrite (proj2 (Nat.leb_le _ _)) by lia.
        split; [|reflexivity]. apply Forall_app. split; [auto|]. constructor; [|constructor]. split; [auto|]. destruct b.
        -- cbn. split; [auto|]. split; [auto|]. apply cox_two; auto. now apply P.
        -- cbn. split; [auto|]. split; [auto|]. assert (N2 : coxeter A s (fs s) <> 2) by (intros Z; apply cox_two in Z; auto; apply P in Z; discriminate).
           pose proof (f_A n A f TW s (fs s) Hn Ht) as SY. rewrite (f_f n A f TW s Hn) in SY. destruct CL as [_ FP]. specialize (FP s (fs s) Hn Ht ltac:(auto)). unfold coxeter in *. unfold finite_pair in FP. cbn in FP.
           destruct FP as [Z|[Z|[Z|[Z|[Z|[Z|[]]]]]]]; injection Z as Z1 Z2; rewrite <- Z1, <- Z2 in *; try lia; cbn in *; lia.
      * cbn [gives]. rewrite (proj2 (Nat.leb_gt _ _)) by lia. rewrite app_nil_r. auto.
Qed.

(** *** lowering by an orbit *)
Notation drop := (drop n comps W).
Notation low := (lowered n A f ell).
Notation fix_ := (fixed n A f).
Notation hd_X := (hd_X n A comps W D RM MK).
Notation tc_X := (tc_X n A comps W D RM MK f TW).
Notation lm_X := (lm_X n A comps W D RM MK).
Notation htc_TI := (htc_TI n A comps W D RM MK f TW).
Definition result_ok (g : ext_gen) (u : list nat) (neg : bool) (v : list nat) : Prop :=
  low (e_s0 g) u v /\ (exists x y, orbit_word f (e_s0 g) x /\ orbit_word f (e_s0 g) y /\ u ~ x ++ v ++ y) /\
  (neg = true <-> (e_type g = one /\ ell u = ell v + 2) \/ (e_type g = two /\ ell u = ell v + 4)).
Lemma undo2 s u : s < n -> s :: s :: u ~ u.
Proof. apply undo. Qed.
Lemma tail2 u x : x < n -> (u ++ [x]) ++ [x] ~ u.
Proof. intros Hx. rewrite <- app_assoc. now apply same_undo. Qed.
Ltac orb := let i := fresh in let I := fresh in intros i I; cbn [In] in I; intuition (subst; auto).
Lemma ext_lower_X w u g : X w u -> fix_ u -> orbit_ok g -> drop (e_s0 g) u ->
  gives (ext_lower W f g w) (fun '(neg, w') => exists v, X w' v /\ result_ok g u neg v) sure.
Proof.
  intros H FU [Hs OK] [_ DS]. pose proof FU as [T F]. unfold ext_lower, result_ok. destruct g as [ty s t]. cbn [e_s0 e_s1 e_type] in *.
  eapply gives_run; [apply (htc_TI w u s H T Hs)|]. intros c P. destruct ty.
  - destruct c.
    + assert (CM : comm s u) by now apply P. eapply gives_run; [apply (lm_X w u s H Hs)|]. intros [x y] [Hx _]. cbn [gives]. exists (s :: u). split; [auto|].
      destruct (lower_one_comm n A f TW ell ELL s u Hs OK FU DS CM) as [Q1 Q2]. split; [auto|]. split; [exists [s], []|].
      * split; [orb|]. split; [orb|]. rewrite app_nil_r. cbn [app]. symmetry. now apply undo2.
      * split; [discriminate|]. intros [[_ Z]|[Z _]]; [lia|discriminate].
    + assert (CM : ~ comm s u) by (intros Q; apply P in Q; discriminate). eapply gives_run; [apply (tc_X w u s H Hs)|]. intros [x y] [Hx _]. cbn [gives].
      exists (s :: u ++ [s]). rewrite OK in Hx. split; [auto|]. destruct (lower_one_conj n A f TW eqw EQW ell ELL s u Hs OK FU DS CM) as [Q1 Q2]. split; [auto|]. split; [exists [s], [s]|].
      * split; [orb|]. split; [orb|]. cbn [app]. rewrite undo2, tail2 by auto. reflexivity.
      * split; [|auto]. intros _. left. split; [auto|lia].
  - destruct OK as (ST & LT & M2). assert (NE : s <> t) by lia. assert (Ht : t < n) by (rewrite <- ST; now apply fs_lt). destruct c.
    + assert (CM : comm s u) by now apply P. eapply gives_run; [apply (lm_X w u s H Hs)|]. intros [x y] [Hx _]. eapply gives_run; [apply (lm_X x _ t Hx Ht)|]. intros [x1 y1] [Hx1 _]. cbn [gives].
      exists (t :: s :: u). split; [auto|]. destruct (lower_two_comm n A f CL TW ell ELL s t Hs ST NE M2 u FU DS CM) as [Q1 Q2]. split; [auto|]. split; [exists [s; t], []|].
      * split; [orb|]. split; [orb|]. rewrite app_nil_r. cbn [app]. rewrite undo2, undo2 by auto. reflexivity.
      * split; [discriminate|]. intros [[Z _]|[_ Z]]; [discriminate|lia].
    + assert (CM : ~ comm s u) by (intros Q; apply P in Q; discriminate). eapply gives_run; [apply (tc_X w u s H Hs)|]. intros [x y] [Hx _]. rewrite ST in Hx.
      eapply gives_run; [apply (hd_X x _ t Hx Ht)|]. intros b PB. pose proof Hx as [O1 _]. destruct b.
      * assert (DS2 : ell (t :: s :: u ++ [t]) < ell (s :: u ++ [t])) by now apply PB. eapply gives_run; [apply (tc_X x _ t Hx Ht)|]. intros [x1 y1] [Hx1 _]. cbn [gives].
        assert (TS : fs t = s) by (rewrite <- ST; now apply (f_f n A f TW)). rewrite TS in Hx1. eexists. split; [exact Hx1|].
        destruct (lower_two_complex n A f TW eqw EQW ell ELL s t Hs ST NE M2 u FU DS CM DS2) as (_ & Q1 & Q2). split; [auto|]. split; [exists [s; t], [s; t]|].
        -- split; [orb|]. split; [orb|]. cbn [app]. rewrite !undo2 by auto. change [s; t] with ([s] ++ [t]). rewrite app_assoc, tail2, tail2 by auto. reflexivity.
        -- split; [|auto]. intros _. right. split; [auto|lia].
      * assert (DS2 : ell (s :: u ++ [t]) < ell (t :: s :: u ++ [t])).
        { destruct (E_cons t _ Ht O1) as [E|E]; [lia|]. assert (false = true) by (apply PB; lia). discriminate. }
        cbn [gives]. exists (s :: u ++ [t]). split; [auto|]. destruct (lower_two_semi n A f CL TW eqw EQW ell ELL s t Hs ST NE M2 u FU DS CM DS2) as [Q1 Q2]. split; [auto|]. split; [exists [s], [t]|].
        -- split; [orb|]. split; [orb|]. cbn [app]. rewrite undo2, tail2 by auto. reflexivity.
        -- split; [discriminate|]. intros [[Z _]|[_ Z]]; [discriminate|lia].
  - destruct OK as (ST & LT & M3). assert (NE : s <> t) by lia. assert (Ht : t < n) by (rewrite <- ST; now apply fs_lt).
    assert (TS : fs t = s) by (rewrite <- ST; now apply (f_f n A f TW)). destruct c.
    + assert (CM : comm s u) by now apply P. eapply gives_run; [apply (lm_X w u s H Hs)|]. intros [x y] [Hx _]. eapply gives_run; [apply (tc_X x _ t Hx Ht)|]. intros [x1 y1] [Hx1 _]. cbn [gives]. rewrite TS in Hx1.
      eexists. split; [exact Hx1|]. destruct (lower_three_comm n A f CL TW ell ELL s t Hs ST NE M3 u FU DS CM) as [Q1 Q2]. split; [auto|]. split; [exists [s; t], [s]|].
      * split; [orb|]. split; [orb|]. cbn [app]. rewrite !undo2, tail2 by auto. reflexivity.
      * split; [discriminate|]. intros [[Z _]|[Z _]]; discriminate.
    + assert (CM : ~ comm s u) by (intros Q; apply P in Q; discriminate). eapply gives_run; [apply (tc_X w u s H Hs)|]. intros [x y] [Hx _]. rewrite ST in Hx.
      pose proof (TI_conj n A f TW s u Hs T) as T1. rewrite ST in T1.
      eapply gives_run; [apply (htc_TI x _ t Hx T1 Ht)|]. intros b PB. destruct b.
      * assert (CT : comm t (s :: u ++ [t])) by now apply PB. eapply gives_run; [apply (lm_X x _ t Hx Ht)|]. intros [x1 y1] [Hx1 _]. cbn [gives]. eexists. split; [exact Hx1|].
        destruct (lower_three_semi n A f CL TW eqw EQW ell ELL s t Hs ST NE M3 u FU DS CM CT) as [Q1 Q2]. split; [auto|]. split; [exists [s; t], [t]|].
        -- split; [orb|]. split; [orb|]. cbn [app]. rewrite !undo2, tail2 by auto. reflexivity.
        -- split; [discriminate|]. intros [[Z _]|[Z _]]; discriminate.
      * assert (CT : ~ comm t (s :: u ++ [t])) by (intros Q; apply PB in Q; discriminate). eapply gives_run; [apply (tc_X x _ t Hx Ht)|]. intros [x1 y1] [Hx1 _]. rewrite TS in Hx1.
        eapply gives_run; [apply (tc_X x1 _ s Hx1 Hs)|]. intros [x2 y2] [Hx2 _]. rewrite ST in Hx2. cbn [gives]. eexists. split; [exact Hx2|].
        destruct (lower_three_complex n A f CL TW eqw EQW ell ELL s t Hs ST NE M3 u FU DS CM CT) as [Q1 Q2]. split; [auto|]. split; [exists [s; t; s], [t; s; t]|].
        -- split; [orb|]. split; [orb|]. cbn [app]. rewrite !undo2 by auto. change [t; s; t] with ([t] ++ [s] ++ [t]). rewrite !app_assoc, !tail2 by auto. reflexivity.
        -- split; [discriminate|]. intros [[Z _]|[Z _]]; discriminate.
Qed.

(** *** the expression by orbits *)
Variable orbits : list ext_gen.
Hypothesis OK : Forall orbit_ok orbits.
Hypothesis FIRST : map e_s0 orbits = filter (fun s => s <=? fs s) (seq 0 n).
Lemma orbit_at j g : nth_error orbits j = Some g -> orbit_ok g.
Proof. intros E. apply nth_error_In in E. rewrite Forall_forall in OK. auto. Qed.
Lemma some_orbit u : fix_ u -> ~ u ~ [] -> exists j g, nth_error orbits j = Some g /\ drop (e_s0 g) u.
Proof.
  intros FU NZ. pose proof FU as [T F]. pose proof T as [O _]. destruct (some_descent n A comps W D RM MK u O NZ) as (s & Hs & DS). pose proof (fs_lt s Hs) as Ht.
  assert (X : exists r, r < n /\ r <= fs r /\ ell (r :: u) < ell u).
  { destruct (le_lt_dec s (fs s)) as [Q|Q]; [eauto|]. exists (fs s). split; [auto|]. split; [rewrite (f_f n A f TW s Hs); lia|]. now rewrite (d_sides n A f TW ell ELL s u Hs O F). }
  destruct X as (r & Hr & LE & DR). assert (I : In r (map e_s0 orbits)).
  { rewrite FIRST. apply filter_In. split; [apply in_seq; lia|now apply Nat.leb_le]. }
  apply in_map_iff in I. destruct I as (g & <- & I). apply In_nth_error in I. destruct I as (j & E). exists j, g. split; [auto|]. split; auto.
Qed.
Lemma first_orbit_X w u k j : X w u -> fix_ u -> ~ u ~ [] -> j + k = length orbits -> (forall i g, i < j -> nth_error orbits i = Some g -> ~ drop (e_s0 g) u) ->
  gives (first_orbit W orbits k j w) (fun r => exists g, nth_error orbits r = Some g /\ drop (e_s0 g) u /\ forall i g, i < r -> nth_error orbits i = Some g -> ~ drop (e_s0 g) u) sure.
Proof.
  intros H FU NZ. revert j. induction k as [|k IH]; intros j E NB; cbn [first_orbit].
  - exfalso. destruct (some_orbit u FU NZ) as (i & g & Q & DS). apply (NB i g); auto. assert (nth_error orbits i <> None) as Z by congruence. apply nth_error_Some in Z. lia.
  - destruct (nth_error orbits j) as [g|] eqn:Q; [|apply nth_error_None in Q; lia]. unfold vget, get. rewrite Q. cbn [of_option bind].
    pose proof (orbit_at j g Q) as [Hs _]. eapply gives_run; [apply (hd_X w u _ H Hs)|]. intros b P. destruct b.
    + cbn [gives]. exists g. split; [auto|]. split; [split; [auto|now apply P]|auto].
    + apply IH; [lia|]. intros i g' Hi Q' DS. assert (i = j \/ i < j) as [->|Z] by lia; [|now apply (NB i g')].
      rewrite Q in Q'. injection Q' as <-. destruct DS as [_ DS]. apply P in DS. discriminate.
Qed.
Lemma shortest_once u k k' : shortest n (coxeter A) u k -> shortest n (coxeter A) u k' -> k = k'.
Proof. intros [(v & V1 & V2 & V3) M] [(v' & V1' & V2' & V3') M']. specialize (M v' V1' V2'). specialize (M' v V1 V2). lia. Qed.
Lemma below_of i v : i < n -> fix_ v -> ell v < ell (i :: v) -> ascends n A i v.
Proof.
  intros Hi FV U k K. pose proof (fixed_over n A f v FV) as O. pose proof (shortest_once v k (ell v) K (ELL v O)) as ->. destruct (E_cons i v Hi O) as [E|E]; [|lia].
  assert (O1 : over n (i :: v)) by now apply over_cons. assert (O2 : over n (v ++ [i])) by (apply over_app; split; [auto|now apply over_one]).
  assert (E2 : ell (v ++ [i]) = ell (i :: v)).
  { rewrite <- (ell_rev n (coxeter A) (cox_symm A) ell ELL (v ++ [i]) O2), rev_app_distr. cbn [rev app]. apply E_same; [apply over_cons; split; [auto|now apply over_rev]|]. rewrite (fixed_rev n A f v FV). reflexivity. }
  rewrite <- E. split; [now apply ELL|]. rewrite <- E2. now apply ELL.
Qed.
Lemma fixed_same u v : fix_ u -> u ~ v -> fix_ v.
Proof. intros [T F] E. split; [now apply (TI_same n A f TW u)|]. rewrite <- E at 2. rewrite <- F. now apply (d_same n A f TW), same_sym. Qed.
(** an expression of the elements between [u] and [v], its letters in order *)
Inductive between : list nat -> list Z -> list nat -> Prop :=
| bt_nil u : between u [] u
| bt_cons z zs g u v x : nth_error orbits (letter_gen z) = Some g -> fix_ u -> drop (e_s0 g) u -> (forall j h, j < letter_gen z -> nth_error orbits j = Some h -> ~ drop (e_s0 h) u) ->
    result_ok g u (z <? 0)%Z v -> between v zs x -> between u (z :: zs) x.
Lemma between_snoc u zs v z g x : between u zs v -> nth_error orbits (letter_gen z) = Some g -> fix_ v -> drop (e_s0 g) v -> (forall j h, j < letter_gen z -> nth_error orbits j = Some h -> ~ drop (e_s0 h) v) ->
  result_ok g v (z <? 0)%Z x -> between u (zs ++ [z]) x.
Proof.
  induction 1 as [u|z' zs g' u v' x' E1 E2 E3 E4 E5 E6 IH]; intros P1 P2 P3 P4 P5; cbn [app].
  - apply (bt_cons z [] g u x x); auto. constructor.
  - apply (bt_cons z' _ g' u v' x); auto.
Qed.
Lemma not_drop_below t u : t < n -> fix_ u -> ~ drop t u -> ascends n A t u.
Proof.
  intros Ht FU ND. apply below_of; auto. destruct (E_cons t u Ht (fixed_over n A f u FU)) as [E|E]; [lia|]. exfalso. apply ND. split; [auto|lia].
Qed.
Lemma between_expression u zs v : between u zs v -> v ~ [] -> orbit_expression n A f (map e_s0 orbits) zs u.
Proof.
  induction 1 as [u|z zs g u v x E1 FU DG FI RO B IH]; intros E; [now constructor|]. destruct RO as ((FV & LV & U1 & U2) & XY & SG). pose proof (orbit_at _ g E1) as [Hs OG].
  pose proof (fixed_over n A f u FU) as Ou. pose proof (fixed_over n A f v FV) as Ov.
  apply (oe_cons n A f _ z zs (e_s0 g) u v); [now rewrite nth_error_map, E1| | | | |auto].
  - destruct FU as [T F]. pose proof FV as [T' F']. repeat (split; [solve [auto]|]). split; [now apply below_of|]. split; [|auto]. apply below_of; auto using fs_lt.
  - intros Q. apply E_same in Q; auto. lia.
  - intros j t Hj Q. rewrite nth_error_map in Q. destruct (nth_error orbits j) as [h|] eqn:Qh; [|discriminate]. injection Q as <-. apply not_drop_below; auto; [apply (orbit_at j h Qh)|]. now apply (FI j).
  - intros a b Ka Kb. pose proof (shortest_once u a (ell u) Ka (ELL u Ou)) as ->. pose proof (shortest_once v b (ell v) Kb (ELL v Ov)) as ->.
    rewrite <- Z.ltb_lt, SG. destruct (e_type g) eqn:ET.
    + rewrite OG. split; [intros [[_ Q]|[Q _]]; [now left|discriminate]|]. intros [[_ Q]|[Q _]]; [left; auto|lia].
    + destruct OG as (Q1 & Q2 & Q3). rewrite Q1. split.
      * intros [[Q _]|[_ Q]]; [discriminate|]. right. split; [lia|]. auto.
      * intros [[Q _]|(_ & _ & Q)]; [lia|]. right. auto.
    + destruct OG as (Q1 & Q2 & Q3). rewrite Q1, Q3. split; [intros [[Q _]|[Q _]]; discriminate|]. intros [[Q _]|(_ & Q & _)]; [lia|discriminate].
Qed.
Lemma ext_loop_X w u fuel : X w u -> fix_ u -> L w <= fuel ->
  gives (run (_, result) <- loop fuel (fun '(tw, _) => Ok (negb (same_elt tw (w_id W)))) (fun '(tw, result) =>
    run s <- first_orbit W orbits (length orbits) 0 tw;
    run g <- vget orbits s;
    run (neg, tw) <- ext_lower W f g tw;
    Ok (tw, result ++ [if neg : bool then (-1 - Z.of_nat s)%Z else Z.of_nat s])) (w, []);
  Ok result) (fun zs => orbit_expression n A f (map e_s0 orbits) zs u) sure.
Proof.
  intros H FU HF. eapply (gives_run _ _ (fun '(_, zs) => orbit_expression n A f (map e_s0 orbits) zs u)); [|intros [x zs] P; exact P].
  apply (gives_loop (fun '(w, zs) => exists v, X w v /\ fix_ v /\ between u zs v) (fun '(w, _) => L w) (fun '(w, _) => negb (same_elt w (w_id W)))).
  - exists u. split; [auto|]. split; [auto|]. constructor.
  - exact HF.
  - intros [x zs] _. reflexivity.
  - intros [x zs] (v & Hv & FV & B) Q.
    assert (NZ : ~ v ~ []) by (intros Z; pose proof (X_same n A comps W D RM MK x v [] Hv Z) as Hv'; apply (id_of n A comps W D RM MK) in Hv'; apply same_elt_ok in Hv'; rewrite Hv' in Q; discriminate).
    split. { destruct (some_descent n A comps W D RM MK v (fixed_over n A f v FV) NZ) as (r & _ & Q1). rewrite (ell_X x v Hv). lia. }
    eapply gives_run; [apply (first_orbit_X x v (length orbits) 0 Hv FV NZ); [lia|lia]|]. intros r (g & Eg & DG & FI).
    unfold vget, get. rewrite Eg. cbn [of_option bind]. eapply gives_run; [apply (ext_lower_X x v g Hv FV (orbit_at r g Eg) DG)|]. intros [neg x'] (v' & Hv' & RO). cbn [gives].
    pose proof RO as ((FV' & LV & _) & _). split; [|rewrite (ell_X x v Hv), (ell_X x' v' Hv'); auto].
    set (z := if neg then (-1 - Z.of_nat r)%Z else Z.of_nat r). assert (LG : letter_gen z = r) by (apply (rebuild_step n RM); unfold z; destruct neg; auto).
    assert (SG : (z <? 0)%Z = neg) by (unfold z; destruct neg; [apply Z.ltb_lt|apply Z.ltb_ge]; lia).
    exists v'. split; [auto|]. split; [auto|]. apply (between_snoc u zs v z g v'); auto; [now rewrite LG|now rewrite LG|now rewrite SG].
  - intros [x zs] (v & Hv & FV & B) Q. apply (between_expression u zs v B). apply negb_false_iff, same_elt_ok in Q. subst x. apply (X_eq n A comps W D RM MK (w_id W)); [auto|apply (X_id n A comps W D RM MK)].
Qed.
End More.
