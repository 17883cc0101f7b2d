(** Weyl groups: statements in the external numbering of generators *)

From Coq Require Import List Arith ZArith Lia Bool Ascii Permutation.
From Verif Require Import VecModel VecProofs RunModel RunProofs WeylModel WeylSpec WeylTable WeylCheck WeylExchange WeylGroup WeylOps WeylMore WeylMake.
Import ListNotations.
Open Scope nat_scope.

Section Ext.
Variables (n : nat) (A : nat -> nat -> Z) (comps : list component) (W : weyl_group).
Hypothesis D : describes n A comps.
Hypothesis RM : n <= rank_max.
Hypothesis MK : make_weyl n comps = Ok W.
Notation outp := (outp comps).
Notation off := (off comps).
Notation up := (up comps).
Notation B := (inner_matrix A comps).
Notation "u ~ v" := (same n (coxeter A) u v) (at level 70).
Notation rep := (rep n B off W).
Notation L w := (length (ev n off W w)).
Notation ell := (ell n off W).
Definition inp (s : nat) : nat := nth s (w_in W) 0.

Lemma the_group : good_group n B off up W /\ length (w_in W) = rank_max /\ length (w_out W) = rank_max /\ forall i, i < n -> nth i (w_out W) 0 = outp i /\ nth (outp i) (w_in W) 0 = i.
Proof. destruct (make_weyl_ok n A comps D RM) as (W' & E & _ & R). rewrite E in MK. injection MK as <-. exact R. Qed.
Lemma the_transducers : installed n comps (w_transducer W).
Proof. destruct (make_weyl_ok n A comps D RM) as (W' & E & R & _). rewrite E in MK. injection MK as <-. exact R. Qed.
Definition G : good_group n B off up W := proj1 the_group.
Lemma out_get i : i < n -> vget (w_out W) i = Ok (outp i).
Proof.
  intros Hi. destruct the_group as (_ & _ & Lo & E). rewrite (vget_at _ i 0) by (unfold rank_max in *; lia). f_equal. now apply E.
Qed.
Lemma inp_spec s : s < n -> inp s < n /\ outp (inp s) = s.
Proof.
  intros Hs. destruct (outp_onto n A comps D RM s Hs) as (i & Hi & E). destruct the_group as (_ & _ & _ & F). unfold inp. rewrite <- E.
  destruct (F i Hi) as [_ ->]. auto.
Qed.
Lemma inp_outp i : i < n -> inp (outp i) = i.
Proof. intros Hi. destruct the_group as (_ & _ & _ & F). now apply F. Qed.
Lemma in_get s : s < n -> vget (w_in W) s = Ok (inp s).
Proof. intros Hs. destruct the_group as (_ & Li & _). apply vget_at. unfold rank_max in *. lia. Qed.
Lemma rank_is : w_rank W = n.
Proof. apply (rank_ok n B off up W G). Qed.

Lemma inp_over u : over n u -> over n (map inp u).
Proof. intros O s I. apply in_map_iff in I. destruct I as (t & <- & I). now apply inp_spec, O. Qed.
Lemma outp_over u : over n u -> over n (map outp u).
Proof. intros O s I. apply in_map_iff in I. destruct I as (t & <- & I). apply (outp_lt n A comps D RM). now apply O. Qed.
Lemma out_in u : over n u -> map outp (map inp u) = u.
Proof. intros O. rewrite map_map. rewrite <- (map_id u) at 2. apply map_ext_in. intros s I. now apply inp_spec, O. Qed.
Lemma in_out u : over n u -> map inp (map outp u) = u.
Proof. intros O. rewrite map_map. rewrite <- (map_id u) at 2. apply map_ext_in. intros s I. now apply inp_outp, O. Qed.
Lemma same_in u v : u ~ v -> same n (coxeter B) (map inp u) (map inp v).
Proof.
  apply same_map; [intros s Hs; now apply inp_spec|]. intros s t Hs Ht N. destruct (inp_spec s Hs) as [A1 A2]. destruct (inp_spec t Ht) as [C1 C2].
  split; [intros E; apply N; congruence|]. unfold coxeter, inner_matrix. now rewrite A2, C2.
Qed.
Lemma same_out u v : same n (coxeter B) u v -> map outp u ~ map outp v.
Proof.
  apply same_map; [apply (outp_lt n A comps D RM)|]. intros s t Hs Ht N. split; [|auto]. intros E. apply N. now apply (outp_inj n A comps D RM).
Qed.

(** [w] is the element represented by [u] *)
Definition X (w u : list nat) : Prop := over n u /\ rep w (map inp u).
Lemma X_valid w u : X w u -> valid n W w.
Proof. intros [_ [V _]]. auto. Qed.
Lemma X_unique w w' u : X w u -> X w' u -> w = w'.
Proof. intros [_ R] [_ R']. apply (rep_unique n B off up W G w w' _ R R'). Qed.
Lemma X_same w u v : X w u -> u ~ v -> X w v.
Proof. intros [O R] E. split; [now apply (same_over _ _ _ _ E)|]. apply (rep_same n B off W _ _ _ R). now apply same_in. Qed.
Lemma X_eq w u v : X w u -> X w v -> u ~ v.
Proof.
  intros [O [_ E]] [O' [_ E']]. rewrite <- (out_in u O), <- (out_in v O'). apply same_out. apply (same_trans _ _ _ (ev n off W w)); [now apply same_sym|auto].
Qed.
Lemma X_of_valid w : valid n W w -> X w (map outp (ev n off W w)).
Proof.
  intros V. pose proof (ev_over n B off up W G w V) as O. split; [now apply outp_over|]. rewrite in_out by auto. now apply rep_ev.
Qed.
Lemma X_id : X (w_id W) [].
Proof. split; [apply over_nil|]. apply (rep_id n B off up W G). Qed.
Lemma X_length w u : X w u -> shortest n (coxeter A) u (L w).
Proof.
  intros [O R]. destruct (rep_shortest n B off up W G w _ R) as [(v & A1 & A2 & A3) M]. split.
  - exists (map outp v). split; [now apply outp_over|]. split; [|now rewrite map_length]. rewrite <- (out_in u O). now apply same_out.
  - intros v' Ov E. rewrite <- (map_length inp v'). apply M; [now apply inp_over|now apply same_in].
Qed.
Lemma mult_gen_ok w u s : X w u -> s < n -> gives (mult_gen W w s) (fun '(w', c) => X w' (u ++ [s]) /\ c = (Z.of_nat (L w') - Z.of_nat (L w))%Z /\ (c = 1 \/ c = -1)%Z) sure.
Proof.
  intros [O R] Hs. unfold mult_gen. rewrite in_get by auto. cbn [bind]. destruct (inp_spec s Hs) as [Hi _].
  eapply gives_imp; [|apply (inner_mult_rep n B off up W G w _ (inp s) R Hi)]. intros [w' c] (R' & C & CH). unfold change in CH. split; [|lia].
  split; [apply over_app; split; [auto|now apply over_one]|]. rewrite map_app. exact R'.
Qed.
Lemma mult_word_ok w u v : X w u -> over n v -> gives (mult_word W w v) (fun w' => X w' (u ++ v)) sure.
Proof.
  intros R O. unfold mult_word. apply (gives_each (fun p w' => X w' (u ++ p))); [now rewrite app_nil_r|].
  intros pre a post w1 E R1. subst v. apply over_app in O. destruct O as [_ O]. apply over_cons in O. destruct O as [Ha _].
  apply (gives_run _ _ _ _ (mult_gen_ok w1 _ a R1 Ha)). intros [w2 c] [R2 _]. cbn [gives]. now rewrite app_assoc.
Qed.
Lemma element_ok u : over n u -> gives (element W u) (fun w => X w u) sure.
Proof. intros O. apply (mult_word_ok (w_id W) [] u X_id O). Qed.
Lemma element_X w u : over n u -> (element W u = Ok w <-> X w u).
Proof.
  intros O. pose proof (element_ok u O) as H. apply gives_sure in H. destruct H as (w' & E & R). rewrite E. split.
  - intros H. injection H as <-. auto.
  - intros R'. f_equal. now apply (X_unique _ _ u).
Qed.
Lemma element_is w u : X w u -> element W u = Ok w.
Proof. intros R. apply element_X; [apply R|auto]. Qed.
Lemma left_mult_gen_ok w u s : X w u -> s < n -> gives (left_mult_gen W s w) (fun '(w', c) => X w' (s :: u) /\ c = (Z.of_nat (L w') - Z.of_nat (L w))%Z) sure.
Proof.
  intros [O R] Hs. unfold left_mult_gen. rewrite in_get by auto. cbn [bind]. destruct (inp_spec s Hs) as [Hi _].
  eapply gives_imp; [|apply (inner_left_mult_ok n B off up W G w _ (inp s) R Hi)]. intros [w' c] (R' & C). split; [|auto].
  split; [now apply over_cons|exact R'].
Qed.
Lemma left_mult_word_ok w u v : X w u -> over n v -> gives (left_mult_word W v w) (fun w' => X w' (v ++ u)) sure.
Proof.
  intros R O. unfold left_mult_word. eapply gives_imp; [|apply (gives_each (fun p w' => X w' (rev p ++ u)))].
  - cbv beta. rewrite rev_involutive. auto.
  - auto.
  - intros pre a post w1 E R1. assert (Ha : a < n). { apply O, in_rev. rewrite E. apply in_app_iff. right. now left. }
    apply (gives_run _ _ _ _ (left_mult_gen_ok w1 _ a R1 Ha)). intros [w2 c] [R2 _]. cbn [gives]. rewrite rev_app_distr. exact R2.
Qed.
Lemma mult_X w v u u' : X w u -> X v u' -> gives (mult W w v) (fun w' => X w' (u ++ u')) sure.
Proof.
  intros [O R] [O' R']. eapply gives_imp; [|apply (mult_ok n B off up W G w v _ _ R R')]. intros w' H. split; [now apply over_app|]. now rewrite map_app.
Qed.
Lemma inverse_X w u : X w u -> gives (inverse W w) (fun w' => X w' (rev u)) sure.
Proof.
  intros [O R]. eapply gives_imp; [|apply (inverse_ok n B off up W G w _ R)]. intros w' H. split; [now apply over_rev|]. now rewrite map_rev.
Qed.
Lemma conjugate_X w u s : X w u -> s < n -> gives (conjugate W w s) (fun w' => X w' (s :: u ++ [s])) sure.
Proof.
  intros R Hs. unfold conjugate. apply (gives_run _ _ _ _ (left_mult_gen_ok w u s R Hs)). intros [w1 c] [R1 _].
  apply (gives_run _ _ _ _ (mult_gen_ok w1 _ s R1 Hs)). intros [w2 c2] [R2 _]. exact R2.
Qed.
Lemma ext_ell w u : X w u -> ell (map inp u) = L w.
Proof. intros [_ R]. apply (ell_rep n B off up W G w _ R). Qed.
Lemma has_descent_X w u s : X w u -> s < n -> gives (has_descent W s w) (fun b => forall w', X w' (s :: u) -> (b = true <-> L w' < L w)) sure.
Proof.
  intros R Hs. pose proof R as [O R']. unfold has_descent. rewrite in_get by auto. cbn [bind]. destruct (inp_spec s Hs) as [Hi _].
  change (gives (inner_has_descent W (inp s) w) (fun b => forall w', X w' (s :: u) -> (b = true <-> L w' < L w)) sure).
  eapply gives_imp; [|apply (inner_has_descent_ok n B off up W G w _ (inp s) R' Hi)]. intros b H w' R2. rewrite H.
  rewrite <- (ext_ell w' _ R2), <- (ext_ell w u R). reflexivity.
Qed.
Lemma generator_X s : s < n -> gives (generator W s) (fun w => X w [s]) sure.
Proof.
  intros Hs. unfold generator. rewrite in_get by auto. cbn [bind]. destruct (inp_spec s Hs) as [Hi _].
  eapply gives_imp; [|apply (rep_inner_gen n B off up W G (inp s) Hi)]. intros w [R _]. split; [now apply over_one|exact R].
Qed.
Lemma word_X w : valid n W w -> exists u, word W w = Ok u /\ X w u /\ length u = L w.
Proof.
  intros V. exists (map outp (ev n off W w)). destruct the_group as (_ & _ & Lo & F). split; [|split; [now apply X_of_valid|now rewrite map_length]].
  rewrite (word_ok n B off up W G w V) by (rewrite Lo; unfold rank_max in *; lia). f_equal. apply map_ext_in. intros i I. apply F.
  now apply (ev_over n B off up W G w V).
Qed.
(** first letter of the word *)
Lemma leftDescent_X w : valid n W w -> leftDescent W w = Ok match map outp (ev n off W w) with [] => None | s :: _ => Some s end.
Proof.
  intros V. pose proof V as [VL VS]. unfold leftDescent. rewrite rank_is.
  set (search := fix search (n0 i : nat) : res (option nat) :=
     match n0 with
     | O => Ok None
     | S n0 => run x <- vget w i; if 0 <? x then (run o <- vget (w_out W) i; Ok (Some o)) else search n0 (S i)
     end).
  assert (Y : forall k i, i + k = n -> search k i = Ok match map outp (evr off W w i k) with [] => None | s :: _ => Some s end).
  { induction k as [|k IH]; intros i H; [reflexivity|]. cbn [search]. fold search. rewrite (vget_at w i 0) by lia. cbn [bind].
    assert (EE : evr off W w i (S k) = pw off W i (nth i w 0) ++ evr off W w (S i) k) by reflexivity. rewrite EE.
    assert (Hi : i < n) by lia. destruct (Nat.ltb_spec 0 (nth i w 0)) as [P|P].
    - rewrite out_get by auto. cbn [bind]. destruct (piece_first n B off up W G i (nth i w 0) Hi) as [u ->]; [split; [auto|now apply VS]|]. reflexivity.
    - assert (Z : nth i w 0 = 0) by lia. rewrite Z. change (pw off W i 0) with (@nil nat). cbn [app]. apply IH. lia. }
  apply Y. lia.
Qed.

(** *** the longest element *)
Definition top (w0 : list nat) : Prop := valid n W w0 /\ forall i, i < n -> nth i w0 0 = tr_size (trn W i) - 1.
Lemma longest_X : exists w0, longest W = Ok w0 /\ top w0.
Proof. apply gives_sure. apply (longest_ok n B off up W G). Qed.
Lemma top_max w0 : top w0 -> forall w, valid n W w -> L w <= L w0 /\ (L w = L w0 -> w = w0).
Proof. intros [V E] w Vw. now apply (longest_max n B off up W G). Qed.
Lemma ell_top w0 u : top w0 -> over n u -> ell u <= ell (ev n off W w0).
Proof.
  intros T O. pose proof (nf_rep n B off up W G u O) as [V _]. rewrite (ell_rep n B off up W G w0 (ev n off W w0)) by (apply rep_ev, T).
  unfold WeylOps.ell. now apply (top_max w0 T).
Qed.
Lemma top_conjugate w0 u0 s : top w0 -> X w0 u0 -> s < n -> exists t, t < n /\ u0 ++ [s] ++ u0 ~ [t].
Proof.
  intros T [O R] Hs. destruct (inp_spec s Hs) as [Hi _]. pose proof R as [V E].
  destruct (w0_conjugate n (coxeter B) (cox_sym B) (eqw W) (eqw_ok n B off up W G) ell (ell_shortest n B off up W G) (ev n off W w0)
    (ev_over n B off up W G w0 V) (fun u Ou => ell_top w0 u T Ou) (inp s) Hi) as (t & Ht & EQ).
  exists (outp t). split; [now apply (outp_lt n A comps D RM)|]. rewrite <- (out_in u0 O). destruct (inp_spec s Hs) as [_ Es]. pattern s at 1; rewrite <- Es at 1.
  change (map outp (map inp u0) ++ [outp (inp s)] ++ map outp (map inp u0)) with (map outp (map inp u0) ++ map outp [inp s] ++ map outp (map inp u0)).
  rewrite <- !map_app. change [outp t] with (map outp [t]). apply same_out. apply (same_trans _ _ _ (ev n off W w0 ++ [inp s] ++ ev n off W w0)); [|exact EQ].
  apply same_app; [now apply same_sym|]. apply same_app_l. now apply same_sym.
Qed.
Lemma top_square w0 u0 : top w0 -> X w0 u0 -> u0 ++ u0 ~ [].
Proof.
  intros T [O R]. pose proof R as [V E].
  pose proof (w0_square n (coxeter B) (cox_sym B) (eqw W) (eqw_ok n B off up W G) ell (ell_shortest n B off up W G) (ev n off W w0)
    (ev_over n B off up W G w0 V) (fun u Ou => ell_top w0 u T Ou)) as EQ.
  rewrite <- (out_in u0 O), <- map_app. apply (same_out _ []). apply (same_trans _ _ _ (ev n off W w0 ++ ev n off W w0)); [|exact EQ].
  apply same_app; now apply same_sym.
Qed.
Lemma top_length w0 u0 w u wu : top w0 -> X w0 u0 -> X w u -> X wu (u ++ u0) -> L wu + L w = L w0.
Proof.
  intros T [O0 R0] RW RU. pose proof R0 as [V E].
  pose proof (ell_w0 n (coxeter B) (cox_sym B) (eqw W) (eqw_ok n B off up W G) ell (ell_shortest n B off up W G) (ev n off W w0)
    (ev_over n B off up W G w0 V) (fun u Ou => ell_top w0 u T Ou) (map inp u) (inp_over u (proj1 RW))) as EQ.
  rewrite (ext_ell w u RW), (ell_rep n B off up W G w0 (ev n off W w0)) in EQ by (now apply rep_ev).
  rewrite <- EQ. f_equal. rewrite <- (ext_ell wu _ RU). rewrite map_app. apply (x_ell_same n B off up W G).
  - apply over_app. split; [apply inp_over, RW|now apply inp_over].
  - apply same_app_l. now apply same_sym.
Qed.
Lemma one_letter s t : s < n -> t < n -> [s] ~ [t] -> s = t.
Proof.
  intros Hs Ht E. destruct (inp_spec s Hs) as [A1 A2]. destruct (inp_spec t Ht) as [C1 C2]. apply same_in in E.
  apply (generators_differ n B off up W G) in E; auto. congruence.
Qed.
Lemma Chevalley_dual_X w0 u0 s : top w0 -> X w0 u0 -> s < n -> exists t, t < n /\ u0 ++ [s] ++ u0 ~ [t] /\ Chevalley_dual W s = Ok (Some t).
Proof.
  intros T R0 Hs. destruct (top_conjugate w0 u0 s T R0 Hs) as (t & Ht & EQ). exists t. split; [auto|]. split; [auto|].
  unfold Chevalley_dual. destruct longest_X as (w0' & E0 & T0). assert (w0' = w0).
  { destruct T0 as [[L1 _] F1]. destruct T as [[L2 _] F2]. apply (nth_ext _ _ 0 0); [lia|]. intros i Hi. rewrite F1, F2 by lia. auto. }
  subst w0'. rewrite E0. cbn [bind]. pose proof (mult_gen_ok w0 u0 s R0 Hs) as M1. apply gives_sure in M1. destruct M1 as ([w1 c] & E1 & R1 & _). rewrite E1. cbn [bind].
  pose proof (mult_X w1 w0 _ _ R1 R0) as M2. apply gives_sure in M2. destruct M2 as (w2 & E2 & R2). rewrite E2. cbn [bind]. rewrite <- app_assoc in R2.
  rewrite rank_is.
  assert (Y : forall k i, i <= t -> t < i + k -> i + k = n -> (fix search (n t : nat) : res (option nat) :=
     match n with
     | O => Ok None
     | S n => run g <- generator W t; if same_elt w2 g then Ok (Some t) else search n (S t)
     end) k i = Ok (Some t)).
  { induction k as [|k IH]; intros i H1 H2 H3; [lia|]. pose proof (generator_X i ltac:(lia)) as M. apply gives_sure in M. destruct M as (g & EG & RG). rewrite EG. cbn [bind].
    destruct (same_elt w2 g) eqn:Q.
    - apply same_elt_ok in Q. subst g. f_equal. f_equal. apply one_letter; [lia|auto|]. apply (same_trans _ _ _ (u0 ++ [s] ++ u0)); [now apply (X_eq w2)|auto].
    - apply IH; [|lia|lia]. assert (i <> t); [|lia]. intros ->. assert (w2 = g); [|subst; rewrite (proj2 (same_elt_ok g g) eq_refl) in Q; discriminate].
      apply (X_unique _ _ [t]); [now apply (X_same _ _ _ R2)|auto]. }
  apply (Y n 0); lia.
Qed.

(** *** commuting generators *)
Lemma commutes_X s t : s < n -> t < n -> exists b, commutes W s t = Ok b /\ (b = true <-> [s; t] ~ [t; s]).
Proof.
  intros Hs Ht. unfold commutes. destruct (Nat.eqb_spec s t) as [->|N].
  - exists true. split; [auto|]. split; [intros _; apply same_refl|auto].
  - rewrite !in_get by auto. cbn [bind]. destruct (inp_spec s Hs) as [A1 A2]. destruct (inp_spec t Ht) as [C1 C2].
    assert (NI : inp s <> inp t) by congruence.
    assert (KEY : forall i j, i < j -> j < n -> exists b, inner_commutes (w_transducer W) (w_upper W) i j = Ok b /\ (b = true <-> same n (coxeter B) [i; j] [j; i])).
    { intros i j Lij Hj. pose proof G as GG. destruct GG.
      pose proof (inner_commutes_ok n B off up (w_transducer W) (w_upper W) gg_trs gg_upper (fun i Hi => conj (gg_offset i Hi) (conj (gg_limit i Hi) (gg_table i Hi)))
        gg_up gg_bounds gg_comp gg_zero gg_cartan i j Lij Hj) as M.
      apply gives_sure in M. destruct M as (b & E & P). exists b. split; [auto|]. destruct b.
      - split; [intros _|auto]. pose proof (same_braid n (coxeter B) i j ltac:(lia) Hj ltac:(lia)) as BR. unfold coxeter in BR. rewrite (proj1 P) in BR. exact BR.
      - split; [discriminate|]. intros SM. exfalso. destruct P as [PO PT]. fold (trn W j) in PT.
        pose proof (gg_bounds j Hj) as [BJ _]. assert (Hi : i < n) by lia. pose proof (gg_bounds i Hi) as [BI _].
        pose proof (pw_shift n B off up W G j 1 (i - off j) Hj ltac:(pose proof (size_two n B off up W G j Hj); lia) ltac:(rewrite (gg_limit j Hj); lia) PT) as SH.
        rewrite (pw_one n B off up W G j Hj) in SH. replace (off j + (i - off j)) with i in SH by lia. cbn [app] in SH.
        set (y := T (trn W j) 1 (i - off j)) in *.
        (* two normal forms of the same element *)
        set (w1 := upd (w_id W) j y). set (w2 := upd (upd (w_id W) i 1) j 1). destruct (id_valid n B off up W G) as [IL IV].
        assert (LI : length (upd (w_id W) i 1) = n) by (rewrite upd_length; lia).
        assert (N1 : forall a, nth a w1 0 = if a =? j then y else 0) by (intros a; unfold w1; rewrite upd_nth by lia; destruct (a =? j); [auto|]; unfold w_id; apply nth_repeat).
        assert (N2 : forall a, nth a w2 0 = if a =? j then 1 else if a =? i then 1 else 0).
        { intros a. unfold w2. rewrite upd_nth by lia. destruct (a =? j); [auto|]. rewrite upd_nth by lia. destruct (a =? i); [auto|]. unfold w_id. apply nth_repeat. }
        assert (V1 : valid n W w1).
        { split; [unfold w1; rewrite upd_length; lia|]. intros a Ha. rewrite N1. pose proof (size_two n B off up W G a Ha). destruct (Nat.eqb_spec a j) as [Q|Q]; [rewrite Q; auto|lia]. }
        assert (V2 : valid n W w2).
        { split; [unfold w2; rewrite upd_length; lia|]. intros a Ha. rewrite N2. pose proof (size_two n B off up W G a Ha). destruct (a =? j), (a =? i); lia. }
        assert (E1 : ev n off W w1 = pw off W j y).
        { unfold ev. replace n with (j + (1 + (n - S j))) at 1 by lia. rewrite !evr_app. cbn [Nat.add].
          rewrite (evr_zero off W w1 0 j), (evr_zero off W w1 (j + 1)).
          - rewrite evr_S, Nat.add_0_r, N1, Nat.eqb_refl. change (evr off W w1 j 0) with (@nil nat). cbn [app]. apply app_nil_r.
          - intros a Ha. rewrite N1. destruct (Nat.eqb_spec a j); [lia|auto].
          - intros a Ha. rewrite N1. destruct (Nat.eqb_spec a j); [lia|auto]. }
        assert (E2 : ev n off W w2 = [i; j]).
        { unfold ev. replace n with (i + (1 + (j - S i + (1 + (n - S j))))) at 1 by lia. rewrite !evr_app. cbn [Nat.add].
          rewrite (evr_zero off W w2 0 i), (evr_zero off W w2 (i + 1)), (evr_zero off W w2 (i + 1 + (j - S i) + 1)).
          - replace (i + 1 + (j - S i)) with j by lia. rewrite !evr_S, !Nat.add_0_r, !N2, !Nat.eqb_refl. destruct (Nat.eqb_spec i j); [lia|].
            rewrite !(pw_one n B off up W G) by lia. reflexivity.
          - intros a Ha. rewrite N2. destruct (Nat.eqb_spec a j), (Nat.eqb_spec a i); lia.
          - intros a Ha. rewrite N2. destruct (Nat.eqb_spec a j), (Nat.eqb_spec a i); lia.
          - intros a Ha. rewrite N2. destruct (Nat.eqb_spec a j), (Nat.eqb_spec a i); lia. }
        assert (EQ : w1 = w2).
        { apply (ev_inj n B off up W G); auto. rewrite E1, E2. apply (same_trans _ _ _ [j; i]); [now apply same_sym|now apply same_sym]. }
        assert (Z : nth i w1 0 = nth i w2 0) by now rewrite EQ. rewrite N1, N2, Nat.eqb_refl in Z. destruct (Nat.eqb_spec i j); [lia|discriminate]. }
    assert (EX : forall i j, i < n -> j < n -> i <> j -> exists b, inner_commutes (w_transducer W) (w_upper W) i j = Ok b /\ (b = true <-> same n (coxeter B) [i; j] [j; i])).
    { intros i j Hi Hj Nij. destruct (Nat.lt_ge_cases i j) as [Q|Q]; [now apply KEY|]. destruct (KEY j i ltac:(lia) Hi) as (b & E & P). exists b. split.
      - rewrite <- E. unfold inner_commutes. rewrite !(up_get n B off up W G) by auto. cbn [bind]. rewrite (Nat.eqb_sym (up i)).
        destruct (Nat.ltb_spec j i), (Nat.ltb_spec i j); try lia. reflexivity.
      - rewrite P. split; apply same_sym. }
    destruct (EX (inp s) (inp t) A1 C1 NI) as (b & E & P). exists b. split; [auto|]. rewrite P. split; intros Q.
    + apply same_out in Q. cbn [map] in Q. rewrite A2, C2 in Q. exact Q.
    + now apply same_in in Q.
Qed.

(** *** translation *)
Lemma inner_map_X f : n <= length f -> over n f -> exists g, inner_map W f = Ok g /\ length g = n /\ forall i, i < n -> nth i g 0 = inp (nth (outp i) f 0).
Proof.
  intros Lf O. apply gives_sure. unfold inner_map. rewrite rank_is. apply (make_row_ok 0 n _ (fun i x => x = inp (nth (outp i) f 0))).
  intros i Hi. rewrite out_get by auto. cbn [bind]. pose proof (outp_lt n A comps D RM i Hi) as H. rewrite (vget_at f _ 0) by lia. cbn [bind].
  rewrite in_get; [reflexivity|]. apply O, nth_In. lia.
Qed.
Lemma relabel_over f u : n <= length f -> over n f -> over n u -> over n (relabel f u).
Proof. intros Lf Of Ou s I. apply in_map_iff in I. destruct I as (t & <- & I). apply Of, nth_In. apply Ou in I. lia. Qed.
Lemma translation_X w f : valid n W w -> n <= length f -> over n f -> gives (translation W w f) (fun w' => X w' (relabel f (map outp (ev n off W w)))) sure.
Proof.
  intros V Lf Of. pose proof V as [VL VS]. destruct (inner_map_X f Lf Of) as (g & E & Lg & Fg). unfold translation. rewrite E. cbn [bind]. rewrite rank_is.
  assert (OO : over n (relabel f (map outp (ev n off W w)))) by (apply relabel_over; auto; now apply outp_over, (ev_over n B off up W G)).
  eapply gives_imp; [|apply (gives_range (fun k w' => rep w' (map (fun i => nth i g 0) (evr off W w 0 k))))].
  - cbn [Nat.add]. intros w' R. split; [auto|]. unfold relabel. rewrite !map_map. eapply rep_same; [exact R|].
    rewrite (map_ext_in _ (fun x => inp (nth (outp x) f 0))); [apply same_refl|]. intros i I. apply Fg. now apply (ev_over n B off up W G w V).
  - apply (rep_id n B off up W G).
  - intros i w1 Hi R1. rewrite (vget_at w i 0) by lia. cbn [bind]. rewrite (tr_get n B off up W G) by lia. cbn [bind]. assert (Hin : i < n) by lia.
    rewrite (stack_ok _ _ (gg_table _ _ _ _ _ G i Hin)) by now apply VS. cbn [bind]. rewrite evr_S. cbn [Nat.add]. rewrite map_app. unfold pw. rewrite map_map.
    apply (gives_each (fun p w' => rep w' (map (fun i => nth i g 0) (evr off W w 0 i) ++ map (fun x => nth (off i + x) g 0) p))).
    + cbn [map]. now rewrite app_nil_r.
    + intros pre s post w2 EP R2. destruct (pw_local n B off up W G i (nth i w 0) s Hin (VS i Hin)) as (A1 & _); [rewrite EP; apply in_app_iff; right; now left|].
      rewrite (gg_offset _ _ _ _ _ G i Hin), (Nat.add_comm s). rewrite (vget_at g _ 0) by lia. cbn [bind].
      assert (Hg : nth (off i + s) g 0 < n).
      { rewrite Fg by auto. apply inp_spec. apply Of, nth_In. pose proof (outp_lt n A comps D RM _ A1). lia. }
      apply (gives_run _ _ _ _ (inner_mult_rep n B off up W G w2 _ _ R2 Hg)). intros [w3 c] [R3 _]. cbn [gives]. rewrite map_app, app_assoc. exact R3.
Qed.
Lemma reverse_translation_X w f : valid n W w -> n <= length f -> over n f -> gives (reverse_translation W w f) (fun w' => X w' (rev (relabel f (map outp (ev n off W w))))) sure.
Proof.
  intros V Lf Of. pose proof V as [VL VS]. destruct (inner_map_X f Lf Of) as (g & E & Lg & Fg). unfold reverse_translation. rewrite E. cbn [bind]. rewrite rank_is.
  assert (OO : over n (relabel f (map outp (ev n off W w)))) by (apply relabel_over; auto; now apply outp_over, (ev_over n B off up W G)).
  eapply gives_imp; [|apply (gives_down (fun k w' => rep w' (rev (map (fun i => nth i g 0) (evr off W w k (n - k))))))].
  - cbv beta. rewrite Nat.sub_0_r. intros w' R. split; [now apply over_rev|]. unfold relabel. rewrite map_rev, !map_map. eapply rep_same; [exact R|].
    rewrite (map_ext_in _ (fun x => inp (nth (outp x) f 0))); [apply same_refl|]. intros i I. apply Fg. now apply (ev_over n B off up W G w V).
  - rewrite Nat.sub_diag. apply (rep_id n B off up W G).
  - intros i w1 Hi R1. rewrite (vget_at w i 0) by lia. cbn [bind]. rewrite (tr_get n B off up W G) by lia. cbn [bind].
    rewrite (letters_ok _ _ (gg_table _ _ _ _ _ G i Hi)) by now apply VS. cbn [bind].
    replace (n - i) with (1 + (n - S i)) by lia. rewrite evr_app, Nat.add_1_r. assert (Q : evr off W w i 1 = pw off W i (nth i w 0)) by (rewrite evr_S, Nat.add_0_r; reflexivity). rewrite Q.
    rewrite map_app, rev_app_distr. unfold pw at 1. rewrite map_map, <- (map_rev (fun x => nth (off i + x) g 0)).
    apply (gives_each (fun p w' => rep w' (rev (map (fun i => nth i g 0) (evr off W w (S i) (n - S i))) ++ map (fun x => nth (off i + x) g 0) p))).
    + cbn [map]. now rewrite app_nil_r.
    + intros pre s post w2 EP R2. destruct (pw_local n B off up W G i (nth i w 0) s Hi (VS i Hi)) as (A1 & _); [apply in_rev; rewrite EP; apply in_app_iff; right; now left|].
      rewrite (gg_offset _ _ _ _ _ G i Hi), (Nat.add_comm s). rewrite (vget_at g _ 0) by lia. cbn [bind].
      assert (Hg : nth (off i + s) g 0 < n).
      { rewrite Fg by auto. apply inp_spec. apply Of, nth_In. pose proof (outp_lt n A comps D RM _ A1). lia. }
      apply (gives_run _ _ _ _ (inner_mult_rep n B off up W G w2 _ _ R2 Hg)). intros [w3 c] [R3 _]. cbn [gives]. rewrite map_app, app_assoc. exact R3.
Qed.

(** *** the action on weights *)
Lemma act_in u : over n u -> forall x j, j < n -> reflect_word A u x (outp j) = reflect_word B (map inp u) (fun i => x (outp i)) j.
Proof.
  induction u as [|s u IH]; intros O x j Hj; [auto|]. apply over_cons in O. destruct O as [Hs O]. cbn [map]. rewrite !reflect_word_cons, IH by auto.
  destruct (inp_spec s Hs) as [Hi E]. apply (reflect_word_matrix B B n); auto; [now apply inp_over|]. intros i Hi'. unfold reflect, inner_matrix. now rewrite E.
Qed.
Lemma faithful u v : over n u -> over n v -> (u ~ v <-> forall x j, j < n -> reflect_word A u x j = reflect_word A v x j).
Proof.
  intros Ou Ov. split.
  - intros E x j Hj. destruct (inp_spec j Hj) as [Hi <-]. rewrite !act_in by auto. apply (reflect_same n B); [apply (gg_cartan _ _ _ _ _ G)|]. now apply same_in.
  - intros E. pose proof (element_ok u Ou) as Mu. apply gives_sure in Mu. destruct Mu as (w & _ & Rw). pose proof (element_ok v Ov) as Mv. apply gives_sure in Mv. destruct Mv as (w' & _ & Rw').
    assert (w = w'); [|subst; now apply (X_eq w')]. destruct Rw as [_ [V S]]. destruct Rw' as [_ [V' S']]. apply (act_inj n B off up W G); auto. intros x j Hj.
    rewrite (reflect_same n B _ _ (gg_cartan _ _ _ _ _ G) S), (reflect_same n B _ _ (gg_cartan _ _ _ _ _ G) S').
    specialize (E (fun i => x (inp i)) (outp j) (outp_lt n A comps D RM j Hj)). rewrite !act_in in E by auto.
    rewrite (reflect_word_matrix B B n (map inp u)) with (v' := x) in E; auto; [|now apply inp_over|intros i Hi; now rewrite inp_outp].
    rewrite (reflect_word_matrix B B n (map inp v)) with (v' := x) in E; auto; [now apply inp_over|intros i Hi; now rewrite inp_outp].
Qed.
End Ext.
