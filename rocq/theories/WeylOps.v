(** Weyl groups: products, inverses, lengths, left multiplication *)

From Coq Require Import List Arith ZArith Lia Bool Ascii.
From Verif Require Import VecModel VecProofs RunModel RunProofs WeylModel WeylSpec WeylTable WeylCheck WeylExchange WeylGroup.
Import ListNotations.
Open Scope nat_scope.

Lemma each_comp_cons {A S} (a : A) l (f : A -> S -> res S) s : each_comp (a :: l) f s = bind (f a s) (each_comp l f).
Proof.
  unfold each_comp. cbn [fold_left bind]. destruct (f a s) as [s'|e]; cbn [bind]; [auto|].
  induction l as [|b l IH]; cbn; auto.
Qed.
Lemma each_comp_app {A S} l1 l2 (f : A -> S -> res S) s : each_comp (l1 ++ l2) f s = bind (each_comp l1 f s) (each_comp l2 f).
Proof.
  revert s. induction l1 as [|a l1 IH]; intros s; cbn [app]; [auto|]. rewrite !each_comp_cons. destruct (f a s); cbn [bind]; auto.
Qed.
Lemma gives_each {A S} (I : list A -> S -> Prop) l (f : A -> S -> res S) s : I [] s ->
  (forall pre a post s, l = pre ++ a :: post -> I pre s -> gives (f a s) (I (pre ++ [a])) sure) -> gives (each_comp l f s) (I l) sure.
Proof.
  revert I s. induction l as [|a l IH]; intros I s H0 HS; [exact H0|]. rewrite each_comp_cons.
  pose proof (HS [] a l s eq_refl H0) as H1. apply gives_sure in H1. destruct H1 as (s1 & E & H1). rewrite E. cbn [bind].
  apply (IH (fun p => I (a :: p)) s1 H1). intros pre b post s2 E2 H2. apply (HS (a :: pre) b post); [now rewrite E2|auto].
Qed.
Lemma gives_run {A C} (c : res A) (k : A -> res C) (P : A -> Prop) (Q : C -> Prop) :
  gives c P sure -> (forall a, P a -> gives (k a) Q sure) -> gives (bind c k) Q sure.
Proof. destruct c; cbn; [auto|tauto]. Qed.
Lemma gives_range {S} (I : nat -> S -> Prop) k a (body : nat -> S -> res S) s : I a s ->
  (forall i s, a <= i < a + k -> I i s -> gives (body i s) (I (Datatypes.S i)) sure) -> gives (upto k a body s) (I (a + k)) sure.
Proof.
  revert a s. induction k as [|k IH]; intros a s H0 HS; cbn [upto]; [rewrite Nat.add_0_r; auto|].
  apply (gives_run _ _ (I (Datatypes.S a))); [apply HS; auto; lia|]. intros s1 H1. replace (a + Datatypes.S k) with (Datatypes.S a + k) by lia.
  apply IH; auto. intros i s2 Hi. apply HS. lia.
Qed.
Lemma gives_down {S} (I : nat -> S -> Prop) k (body : nat -> S -> res S) s : I k s ->
  (forall i s, i < k -> I (Datatypes.S i) s -> gives (body i s) (I i) sure) -> gives (downto k body s) (I 0) sure.
Proof.
  revert s. induction k as [|k IH]; intros s H0 HS; cbn [downto]; [exact H0|].
  apply (gives_run _ _ (I k)); [apply HS; auto|]. intros s1 H1. apply IH; auto.
Qed.

Section Ops.
Variables (n : nat) (B : nat -> nat -> Z) (off up : nat -> nat) (W : weyl_group).
Hypothesis G : good_group n B off up W.
Notation "u ~ v" := (same n (coxeter B) u v) (at level 70).
Notation size i := (tr_size (trn W i)).
Notation valid := (valid n W).
Notation ev := (ev n off W).
Notation evr := (evr off W).
Notation pw := (pw off W).
Notation L w := (length (ev w)).

Definition rep (w u : list nat) : Prop := valid w /\ ev w ~ u.

Lemma cox_sym s t : coxeter B s t = coxeter B t s.
Proof. unfold coxeter. now rewrite Z.mul_comm. Qed.
Lemma rep_same w u v : rep w u -> u ~ v -> rep w v.
Proof. intros [V E] H. split; [auto|]. now apply (same_trans _ _ _ u). Qed.
Lemma rep_unique w w' u : rep w u -> rep w' u -> w = w'.
Proof. intros [V E] [V' E']. apply (ev_inj n B off up W G); auto. apply (same_trans _ _ _ u); [auto|now apply same_sym]. Qed.
Lemma rep_ev w : valid w -> rep w (ev w).
Proof. intros V. split; [auto|apply same_refl]. Qed.
Lemma rep_over w u : rep w u -> over n u.
Proof. intros [V E]. apply (same_over _ _ _ _ E). now apply (ev_over n B off up W G). Qed.
Lemma rep_id : rep (w_id W) [].
Proof. split; [now apply (id_valid n B off up W G)|]. rewrite (id_ev n B off up W G). apply same_refl. Qed.

Lemma change_eq c u v : change c u v -> c = (Z.of_nat (length v) - Z.of_nat (length u))%Z.
Proof. unfold change. lia. Qed.
Lemma transduce_rep w u g : rep w u -> g < n -> gives (transduce W w (up g) (g - off g))
  (fun '(w', c) => rep w' (u ++ [g]) /\ c = (Z.of_nat (L w') - Z.of_nat (L w))%Z /\ change c (ev w) (ev w')) sure.
Proof.
  intros [V E] Hg. eapply gives_imp; [|apply (transduce_at_ok n B off up W G w g V Hg)]. intros [w' c] (V' & E' & C). split; [|split; [now apply change_eq|auto]].
  split; [auto|]. apply (same_trans _ _ _ (ev w ++ [g])); [now apply same_sym|now apply same_snoc].
Qed.
Lemma inner_mult_rep w u s : rep w u -> s < n -> gives (inner_mult W w s)
  (fun '(w', c) => rep w' (u ++ [s]) /\ c = (Z.of_nat (L w') - Z.of_nat (L w))%Z /\ change c (ev w) (ev w')) sure.
Proof.
  intros R Hs. unfold inner_mult. rewrite (up_get n B off up W G) by auto. cbn [bind]. rewrite (tr_get n B off up W G) by auto. cbn [bind].
  rewrite (gg_offset _ _ _ _ _ G s Hs). now apply transduce_rep.
Qed.

(** *** every word has a normal form *)
Definition inner_word (u : list nat) : res (list nat) := each_comp u (fun s w => run (w, _) <- inner_mult W w s; Ok w) (w_id W).
Lemma inner_word_ok u : over n u -> gives (inner_word u) (fun w => rep w u /\ L w <= length u) sure.
Proof.
  intros O. unfold inner_word. apply (gives_each (fun p w => rep w p /\ L w <= length p)).
  - split; [apply rep_id|]. rewrite (id_ev n B off up W G). auto.
  - intros pre a post w E [R LE]. subst u. apply over_app in O. destruct O as [_ O]. apply over_cons in O. destruct O as [Ha _].
    apply (gives_run _ _ _ _ (inner_mult_rep w pre a R Ha)). intros [w' c] (R' & C1 & C2). cbn [gives]. split; [auto|].
    rewrite app_length. unfold change in C2. cbn [length]. lia.
Qed.
Definition nf (u : list nat) : list nat := match inner_word u with Ok w => w | Fail _ => [] end.
Definition ell (u : list nat) : nat := L (nf u).
Definition eqw (u v : list nat) : bool := same_elt (nf u) (nf v).
Lemma nf_rep u : over n u -> rep (nf u) u.
Proof. intros O. pose proof (inner_word_ok u O) as H. unfold nf. destruct (inner_word u); cbn in H; tauto. Qed.
Lemma nf_le u : over n u -> ell u <= length u.
Proof. intros O. pose proof (inner_word_ok u O) as H. unfold ell, nf. destruct (inner_word u); cbn in H; tauto. Qed.
Lemma nf_eq w u : rep w u -> nf u = w.
Proof. intros R. apply (rep_unique _ _ u); [|auto]. apply nf_rep. now apply (rep_over w). Qed.
Lemma same_elt_ok v w : same_elt v w = true <-> v = w.
Proof. unfold same_elt. destruct (list_eq_dec Nat.eq_dec v w); split; auto; discriminate. Qed.
Lemma eqw_ok u v : over n u -> over n v -> (eqw u v = true <-> u ~ v).
Proof.
  intros Ou Ov. unfold eqw. rewrite same_elt_ok. split; intros E.
  - pose proof (nf_rep u Ou) as [_ A]. pose proof (nf_rep v Ov) as [_ C]. rewrite E in A. apply (same_trans _ _ _ (ev (nf v))); [now apply same_sym|auto].
  - apply (rep_unique _ _ v); [|now apply nf_rep]. apply (rep_same _ u); [now apply nf_rep|auto].
Qed.
Lemma rep_shortest w u : rep w u -> shortest n (coxeter B) u (L w).
Proof.
  intros R. split.
  - exists (ev w). split; [apply (ev_over n B off up W G), R|]. split; [apply same_sym, R|auto].
  - intros v Ov E. replace w with (nf v); [now apply nf_le|]. apply nf_eq. now apply (rep_same _ u).
Qed.
Lemma ell_shortest u : over n u -> shortest n (coxeter B) u (ell u).
Proof. intros O. apply rep_shortest. now apply nf_rep. Qed.
Lemma ell_rep w u : rep w u -> ell u = L w.
Proof. intros R. unfold ell. now rewrite (nf_eq w u R). Qed.

(** facts of [WeylExchange] for this group *)
Definition x_ell_same := ell_same n (coxeter B) ell ell_shortest.
Definition x_ell_le := ell_le n (coxeter B) ell ell_shortest.
Definition x_ell_cons := ell_cons n (coxeter B) ell ell_shortest.
Definition x_ell_rev := ell_rev n (coxeter B) cox_sym ell ell_shortest.
Definition x_exchange := exchange n (coxeter B) cox_sym eqw eqw_ok ell ell_shortest.

(** *** multiplication by a piece *)
Lemma pw_local i x s : i < n -> x < size i -> In s (piece_word (trn W i) x) -> off i + s < n /\ up (off i + s) = up i /\ off (off i + s) = off i.
Proof.
  intros Hi Hx I. apply (piece_over _ _ (gg_table _ _ _ _ _ G i Hi) x Hx) in I. rewrite (gg_limit _ _ _ _ _ G i Hi) in I.
  destruct (gg_bounds _ _ _ _ _ G i Hi) as [A C]. destruct (gg_comp _ _ _ _ _ G i (off i + s) Hi ltac:(lia)) as [E1 E2]. split; [lia|auto].
Qed.
Lemma mult_by_piece_ok w u v i : rep w u -> valid v -> i < n -> gives (mult_by_piece W w v i)
  (fun '(w', c) => rep w' (u ++ pw i (nth i v 0)) /\ c = (Z.of_nat (L w') - Z.of_nat (L w) - Z.of_nat (length (pw i (nth i v 0%nat))))%Z) sure.
Proof.
  intros R V Hi. pose proof V as [VL VS]. unfold mult_by_piece. rewrite (vget_at v i 0) by lia. cbn [bind]. rewrite (tr_get n B off up W G) by auto. cbn [bind].
  rewrite (up_get n B off up W G) by auto. cbn [bind]. set (x := nth i v 0). assert (Hx : x < size i) by now apply VS.
  rewrite (tr_length_ok (trn W i)) by auto. cbn [bind]. rewrite (stack_ok _ _ (gg_table _ _ _ _ _ G i Hi)) by auto. cbn [bind].
  rewrite (pw_length n B off up W G) by auto.
  eapply gives_imp; [|apply (gives_each (fun p '(w', c) => rep w' (u ++ map (fun s => off i + s) p) /\ c = (Z.of_nat (L w') - Z.of_nat (L w) - Z.of_nat (len (trn W i) x))%Z))].
  - intros [w' c] H. exact H.
  - cbn [map]. rewrite app_nil_r. split; [auto|lia].
  - intros pre s post [w1 c1] E [R1 C1]. destruct (pw_local i x s Hi Hx) as (A1 & A2 & A3); [rewrite E; apply in_app_iff; right; now left|].
    pose proof (transduce_rep w1 _ (off i + s) R1 A1) as H. rewrite A2, A3 in H. replace (off i + s - off i) with s in H by lia.
    apply (gives_run _ _ _ _ H). intros [w2 c2] (R2 & C2 & _). cbn [gives]. rewrite map_app, app_assoc. split; [exact R2|lia].
Qed.
Lemma mult_ok w v u u' : rep w u -> rep v u' -> gives (mult W w v) (fun w' => rep w' (u ++ u')) sure.
Proof.
  intros R [V E]. unfold mult. rewrite (rank_ok n B off up W G).
  eapply gives_imp; [|apply (gives_range (fun k w' => rep w' (u ++ evr v 0 k)))].
  - intros w' R'. cbn [Nat.add] in R'. apply (rep_same _ _ _ R'). now apply same_app_l.
  - cbn. rewrite app_nil_r. auto.
  - intros i w1 Hi R1. apply (gives_run _ _ _ _ (mult_by_piece_ok w1 _ v i R1 V ltac:(lia))). intros [w2 c] [R2 _]. cbn [gives].
    rewrite evr_S. cbn [Nat.add]. rewrite app_assoc. auto.
Qed.
Lemma inverse_ok w u : rep w u -> gives (inverse W w) (fun w' => rep w' (rev u)) sure.
Proof.
  intros [V E]. unfold inverse. rewrite (rank_ok n B off up W G). pose proof V as [VL VS].
  eapply gives_imp; [|apply (gives_down (fun k w' => rep w' (rev (evr w k (n - k)))))].
  - intros w' R'. cbv beta in R'. rewrite Nat.sub_0_r in R'. apply (rep_same _ _ _ R'). apply same_rev; [apply cox_sym|exact E].
  - rewrite Nat.sub_diag. apply rep_id.
  - intros i w1 Hi R1. rewrite (vget_at w i 0) by lia. cbn [bind]. rewrite (tr_get n B off up W G) by lia. cbn [bind].
    set (x := nth i w 0). assert (Hx : x < size i) by now apply VS. rewrite (letters_ok _ _ (gg_table _ _ _ _ _ G i Hi)) by auto. cbn [bind].
    replace (n - i) with (1 + (n - S i)) by lia. rewrite evr_app, rev_app_distr. rewrite Nat.add_1_r.
    assert (Q : evr w i 1 = pw i x) by (rewrite evr_S, Nat.add_0_r; reflexivity). rewrite Q.
    unfold WeylGroup.pw at 1. rewrite <- map_rev.
    apply (gives_each (fun p w' => rep w' (rev (evr w (S i) (n - S i)) ++ map (fun s => off i + s) p))).
    + cbn [map]. rewrite app_nil_r. auto.
    + intros pre s post w2 E2 R2. destruct (pw_local i x s Hi Hx) as (A1 & _); [apply in_rev; rewrite E2; apply in_app_iff; right; now left|].
      rewrite (gg_offset _ _ _ _ _ G i Hi), (Nat.add_comm s). apply (gives_run _ _ _ _ (inner_mult_rep w2 _ _ R2 A1)). intros [w3 c] [R3 _]. cbn [gives].
      rewrite map_app, app_assoc. exact R3.
Qed.

(** *** parts of words *)
(** an element of a parabolic subgroup has trivial pieces above it *)
Lemma parabolic_zero w u k : rep w u -> k <= n -> over k u -> forall i, k <= i < n -> nth i w 0 = 0.
Proof.
  intros [V E] Hk O. assert (X : forall d, d <= n - k -> evr w 0 (n - d) ~ u /\ forall i, n - d <= i < n -> nth i w 0 = 0).
  { induction d as [|d IH]; intros Hd; [rewrite Nat.sub_0_r; split; [exact E|lia]|]. destruct (IH ltac:(lia)) as [E1 Z1].
    set (j := n - S d). replace (n - d) with (S j) in * by lia. rewrite evr_S in E1. cbn [Nat.add] in E1.
    assert (Q : nth j w 0 = 0).
    { apply (pw_separated n B off up W G j); [lia|apply V; lia|pose proof (g_size _ _ (gg_table _ _ _ _ _ G j ltac:(lia))); lia|].
      intros a _. pose proof (reflect_same n B _ _ (gg_cartan _ _ _ _ _ G) E1 (fund j) a) as RR. rewrite reflect_word_app in RR.
      rewrite (reflect_word_ext B _ (reflect_word B (evr w 0 j) (fund j)) (fund j)) in RR.
      - rewrite RR. unfold WeylGroup.pw. cbn. apply reflect_fixed; auto. intros I. apply O in I. lia.
      - intros b. apply reflect_fixed; auto. intros I. apply (evr_letter n B off up W G) in I; [|auto|lia]. destruct I as (z & Z2 & Z3). lia. }
    rewrite Q in E1. unfold WeylGroup.pw in E1. cbn in E1. rewrite app_nil_r in E1. split; [exact E1|].
    intros i Hi. destruct (Nat.eq_dec i j) as [->|]; [auto|]. apply Z1. lia. }
  intros i Hi. apply (X (n - k)); lia.
Qed.
(** the piece number 1 *)
Lemma pw_one i : i < n -> pw i 1 = [i].
Proof.
  intros Hi. pose proof (gg_table _ _ _ _ _ G i Hi) as GT. pose proof (g_size _ _ GT) as S. pose proof (gg_limit _ _ _ _ _ G i Hi) as LI.
  destruct (gg_bounds _ _ _ _ _ G i Hi) as [O1 _].
  unfold WeylGroup.pw. rewrite (piece_word_S _ _ GT) by lia. destruct (last_ok _ _ GT 1 ltac:(lia)) as [A C].
  assert (Z : T (trn W i) 1 (last_letter (trn W i) 1) = 0) by lia. rewrite Z. cbn [piece_word wd app map].
  destruct (g_shift _ _ GT 1 _ ltac:(lia) A ltac:(lia)) as (_ & D & _). rewrite Z in D.
  destruct (Nat.lt_ge_cases (Datatypes.S (last_letter (trn W i) 1)) (tr_limit (trn W i))) as [LT|GE].
  - rewrite (g_first _ _ GT _ LT) in D. lia.
  - f_equal. lia.
Qed.
Lemma size_two i : i < n -> 2 <= size i.
Proof. intros Hi. apply (g_size _ _ (gg_table _ _ _ _ _ G i Hi)). Qed.
(** the element with pieces [a..a+k-1] of [w] only *)
Definition part (w : list nat) (a k : nat) : list nat := map (fun i => if (a <=? i) && (i <? a + k) then nth i w 0 else 0) (seq 0 n).
Lemma part_nth w a k i : i < n -> nth i (part w a k) 0 = if (a <=? i) && (i <? a + k) then nth i w 0 else 0.
Proof.
  intros Hi. unfold part. rewrite (nth_indep _ 0 ((fun i => if (a <=? i) && (i <? a + k) then nth i w 0 else 0) 0)) by (rewrite map_length, seq_length; lia).
  rewrite (map_nth (fun i => if (a <=? i) && (i <? a + k) then nth i w 0 else 0)). rewrite seq_nth by lia. auto.
Qed.
Lemma part_valid w a k : valid w -> valid (part w a k).
Proof.
  intros [VL VS]. split; [unfold part; now rewrite map_length, seq_length|]. intros i Hi. rewrite part_nth by auto.
  destruct ((a <=? i) && (i <? a + k)); [auto|]. pose proof (size_two i Hi). lia.
Qed.
Lemma evr_zero w a k : (forall i, a <= i < a + k -> nth i w 0 = 0) -> evr w a k = [].
Proof.
  revert a. induction k as [|k IH]; intros a H; [auto|]. rewrite evr_S. rewrite IH by (intros i Hi; apply H; lia). rewrite H by lia. auto.
Qed.
Lemma part_ev w a k : a + k <= n -> ev (part w a k) = evr w a k.
Proof.
  intros H. unfold WeylGroup.ev. replace n with (a + (k + (n - (a + k)))) at 1 by lia. rewrite !evr_app. cbn [Nat.add].
  rewrite (evr_zero (part w a k) 0 a), (evr_zero (part w a k) (a + k)).
  - cbn [app]. rewrite app_nil_r. apply evr_ext. intros i Hi. rewrite part_nth by lia.
    destruct (Nat.leb_spec a i), (Nat.ltb_spec i (a + k)); try lia. auto.
  - intros i Hi. rewrite part_nth by lia. destruct (Nat.ltb_spec i (a + k)); [lia|]. now rewrite andb_false_r.
  - intros i Hi. rewrite part_nth by lia. destruct (Nat.leb_spec a i); [lia|]. auto.
Qed.
Lemma rep_inner_gen s : s < n -> gives (inner_gen W s) (fun w => rep w [s] /\ ev w = [s]) sure.
Proof.
  intros Hs. unfold inner_gen. destruct (id_valid n B off up W G) as [VL VS]. rewrite vput_upd by lia. cbn [gives].
  set (w := upd (w_id W) s 1). assert (N : forall j, nth j w 0 = if j =? s then 1 else 0).
  { intros j. unfold w. rewrite upd_nth by lia. destruct (j =? s); [auto|]. unfold w_id. apply nth_repeat. }
  assert (V : valid w).
  { split; [unfold w; rewrite upd_length; lia|]. intros i Hi. rewrite N. pose proof (size_two i Hi). destruct (i =? s); lia. }
  assert (E : ev w = [s]).
  { unfold WeylGroup.ev. replace n with (s + (1 + (n - S s))) at 1 by lia. rewrite !evr_app. cbn [Nat.add].
    rewrite (evr_zero w 0 s), (evr_zero w (s + 1)).
    - rewrite evr_S, Nat.add_0_r, N, Nat.eqb_refl, pw_one by auto. reflexivity.
    - intros i Hi. rewrite N. destruct (Nat.eqb_spec i s); [lia|auto].
    - intros i Hi. rewrite N. destruct (Nat.eqb_spec i s); [lia|auto]. }
  split; [|auto]. split; [auto|]. rewrite E. apply same_refl.
Qed.
(** normal words are shortest *)
Lemma evr_ell w a k : valid w -> a + k <= n -> ell (evr w a k) = length (evr w a k).
Proof.
  intros V H. rewrite (ell_rep (part w a k)); [now rewrite part_ev|]. split; [now apply part_valid|]. rewrite part_ev by auto. apply same_refl.
Qed.
Lemma evr_before w a k r : valid w -> a + k <= n -> r < a -> ell (r :: evr w a k) = S (length (evr w a k)).
Proof.
  intros V H Hr. set (w' := upd (part w a k) r 1). destruct (part_valid w a k V) as [VL VS].
  assert (N : forall j, nth j w' 0 = if j =? r then 1 else nth j (part w a k) 0) by (intros j; apply upd_nth; lia).
  assert (V' : valid w').
  { split; [unfold w'; rewrite upd_length; lia|]. intros i Hi. rewrite N. pose proof (size_two i Hi). destruct (i =? r); [lia|auto]. }
  assert (E : ev w' = r :: evr w a k).
  { unfold WeylGroup.ev. replace n with (r + (1 + (a - S r + (k + (n - (a + k)))))) at 1 by lia. rewrite !evr_app. cbn [Nat.add].
    rewrite (evr_zero w' 0 r), (evr_zero w' (r + 1)), (evr_zero w' (r + 1 + (a - S r) + k)).
    - rewrite evr_S, Nat.add_0_r, N, Nat.eqb_refl, pw_one by lia. cbn [app]. change (evr w' r 0) with (@nil nat). cbn [app]. rewrite app_nil_r. f_equal.
      replace (r + 1 + (a - S r)) with a by lia. apply evr_ext. intros i Hi. rewrite N. destruct (Nat.eqb_spec i r); [lia|]. rewrite part_nth by lia.
      destruct (Nat.leb_spec a i), (Nat.ltb_spec i (a + k)); try lia. auto.
    - intros i Hi. rewrite N. destruct (Nat.eqb_spec i r); [lia|]. rewrite part_nth by lia. destruct (Nat.ltb_spec i (a + k)); [lia|]. now rewrite andb_false_r.
    - intros i Hi. rewrite N. destruct (Nat.eqb_spec i r); [lia|]. rewrite part_nth by lia. destruct (Nat.leb_spec a i); [lia|]. auto.
    - intros i Hi. rewrite N. destruct (Nat.eqb_spec i r); [lia|]. rewrite part_nth by lia. destruct (Nat.leb_spec a i); [lia|]. auto. }
  rewrite (ell_rep w'); [rewrite E; auto|]. split; [auto|]. rewrite E. apply same_refl.
Qed.

(** *** left multiplication *)
Lemma generators_differ s t : s < n -> t < n -> [s] ~ [t] -> s = t.
Proof.
  intros Hs Ht E. pose proof (rep_inner_gen s Hs) as A. pose proof (rep_inner_gen t Ht) as C. apply gives_sure in A, C.
  destruct A as (a & _ & RA & EA). destruct C as (c & _ & RC & EC). assert (a = c) by (apply (rep_unique _ _ [t]); [apply (rep_same _ _ _ RA E)|auto]). subst. rewrite EA in EC. congruence.
Qed.
Lemma star_commutes s r : s < n -> r < nth s (w_min_star W) 0 -> r < s /\ [r; s] ~ [s; r].
Proof.
  intros Hs Hr. pose proof (gg_star _ _ _ _ _ G s Hs) as St. destruct (gg_star_commute _ _ _ _ _ G r s Hs Hr) as [Z1 _]. split; [lia|].
  pose proof (same_braid n (coxeter B) r s ltac:(lia) Hs ltac:(lia)) as E. unfold coxeter in E. rewrite Z1 in E. exact E.
Qed.
(** the pieces of s x, where x has pieces from the first neighbour of s to s only *)
Lemma star_zero w s y : valid w -> s < n -> let t := nth s (w_min_star W) 0 in
  rep y (s :: evr w t (S s - t)) -> forall i, i < n -> i < t \/ s < i -> nth i y 0 = 0.
Proof.
  intros V Hs t R i Hi [Lo|Hi'].
  2:{ apply (parabolic_zero y _ (S s) R); [lia| |lia]. pose proof (gg_star _ _ _ _ _ G s Hs) as St. fold t in St. intros z I. destruct I as [<-|I]; [lia|].
      apply (evr_letter n B off up W G) in I; [|auto|lia]. destruct I as (j & A & C). lia. }
  pose proof (gg_star _ _ _ _ _ G s Hs) as St. fold t in St. set (x := evr w t (S s - t)) in *.
  assert (Hsum : t + (S s - t) <= n) by lia. assert (Ox : over n x) by (now apply (evr_over n B off up W G)).
  assert (Osx : over n (s :: x)) by now apply over_cons.
  (* no generator r < t is a left descent of s x *)
  assert (X : forall r, r < t -> ~ ell (r :: s :: x) < ell (s :: x)).
  { intros r Hr D. destruct (star_commutes s r Hs Hr) as [Lrs CM]. assert (Hrn : r < n) by lia.
    pose proof (evr_ell w t (S s - t) V Hsum) as E1. fold x in E1. pose proof (evr_before w t (S s - t) r V Hsum Hr) as E2. fold x in E2.
    assert (SW : r :: s :: x ~ s :: r :: x) by (apply (same_app_r n (coxeter B) x [r; s] [s; r]); auto).
    assert (Orx : over n (r :: x)) by now apply over_cons.
    assert (E3 : ell (r :: s :: x) = ell (s :: r :: x)) by (apply x_ell_same; [now apply over_cons|auto]).
    pose proof (x_ell_cons r (s :: x) Hrn Osx) as C1. pose proof (x_ell_cons s x Hs Ox) as C2. pose proof (x_ell_cons s (r :: x) Hs Orx) as C3.
    destruct (x_exchange (r :: x) s Orx Hs ltac:(lia)) as (a & z & b & EQ & SM). destruct a as [|r' a]; cbn [app] in EQ, SM.
    - injection EQ as E4 E5. subst z b. assert (Y : [s; r] ~ []) by (apply (same_cancel_r _ _ _ _ x Ox); exact SM).
      assert (s = r); [|lia]. apply generators_differ; auto. apply (same_cancel_r _ _ _ _ [r] (over_one n r Hrn)). cbn.
      apply (same_trans _ _ _ []); [auto|]. apply same_sym. now apply same_square.
    - injection EQ as E4 E5. subst r'. assert (Y : s :: x ~ a ++ b).
      { apply (same_cancel_l _ _ _ _ [r] (over_one n r Hrn)). cbn [app]. apply (same_trans _ _ _ (s :: r :: x)); auto. }
      pose proof (x_ell_le (a ++ b)) as LE. rewrite <- (x_ell_same _ _ Osx Y) in LE. pose proof (proj1 (same_over _ _ _ _ Y) Osx) as Oab. specialize (LE Oab).
      rewrite E5 in *. rewrite app_length in *. cbn [length] in *. lia. }
  (* so the first pieces are trivial *)
  destruct (evr y 0 t) as [|r p] eqn:EP.
  - assert (Ep : pw i (nth i y 0) = []).
    { assert (Q : forall z, In z (pw i (nth i y 0)) -> In z (evr y 0 t)).
      { intros z I. unfold WeylGroup.evr. apply in_concat. exists (pw i (nth i y 0)). split; [|auto]. apply (in_map (fun i => pw i (nth i y 0))). apply in_seq. lia. }
      rewrite EP in Q. destruct (pw i (nth i y 0)) as [|z q]; [auto|]. destruct (Q z (or_introl eq_refl)). }
    pose proof R as [[_ Vy] _]. specialize (Vy i Hi). destruct (Nat.eq_dec (nth i y 0) 0) as [|NZ]; [auto|exfalso].
    unfold WeylGroup.pw in Ep. rewrite (piece_word_S _ _ (gg_table _ _ _ _ _ G i Hi)) in Ep by lia. rewrite map_app in Ep. apply app_eq_nil in Ep. destruct Ep as [_ Ep]. discriminate.
  - exfalso. pose proof R as [Vy Ey]. assert (Hr : r < t).
    { pose proof (evr_letter n B off up W G y 0 t r Vy ltac:(lia)) as I. rewrite EP in I. destruct (I (or_introl eq_refl)) as (j & A & C). lia. }
    apply (X r Hr). assert (F : ev y = r :: p ++ evr y t (n - t)).
    { unfold WeylGroup.ev. replace n with (t + (n - t)) at 1 by lia. rewrite evr_app. cbn [Nat.add]. rewrite EP. auto. }
    rewrite (ell_rep y _ R). rewrite F. cbn [length]. assert (Hrn : r < n) by lia.
    pose proof (ev_over n B off up W G y Vy) as Oy. rewrite F in Oy. apply over_cons in Oy. destruct Oy as [_ Oy].
    rewrite (x_ell_same (r :: s :: x) (p ++ evr y t (n - t))); [|now apply over_cons|].
    + pose proof (x_ell_le _ Oy). lia.
    + apply (same_trans _ _ _ (r :: ev y)); [apply same_cons; now apply same_sym|]. rewrite F.
      apply (same_app_r n (coxeter B) (p ++ evr y t (n - t)) [r; r] []). now apply same_square.
Qed.

(** the product s w, put together from s x and the other pieces of w *)
Lemma left_compose w s y w' : valid w -> s < n -> let t := nth s (w_min_star W) 0 in
  rep y (s :: evr w t (S s - t)) -> length w' = n -> (forall i, i < n -> nth i w' 0 = if (t <=? i) && (i <? S s) then nth i y 0 else nth i w 0) ->
  rep w' (s :: ev w) /\ L w' + length (evr w t (S s - t)) = L y + L w.
Proof.
  intros V Hs t R Hl N. pose proof (gg_star _ _ _ _ _ G s Hs) as St. fold t in St. pose proof R as [Vy Ey].
  assert (Z : forall i, i < n -> i < t \/ s < i -> nth i y 0 = 0) by (intros i Hi Hc; now apply (star_zero w s y V Hs R)).
  assert (V' : valid w').
  { split; [auto|]. intros i Hi. rewrite N by auto. destruct ((t <=? i) && (i <? S s)); [apply Vy|apply V]; auto. }
  assert (SP : forall z, ev z = evr z 0 t ++ evr z t (S s - t) ++ evr z (S s) (n - S s)).
  { intros z. unfold WeylGroup.ev. replace n with (t + ((S s - t) + (n - S s))) at 1 by lia. rewrite !evr_app. cbn [Nat.add]. replace (t + (S s - t)) with (S s) by lia. auto. }
  assert (P1 : evr w' 0 t = evr w 0 t) by (apply evr_ext; intros i Hi; rewrite N by lia; destruct (Nat.leb_spec t i); [lia|auto]).
  assert (P2 : evr w' t (S s - t) = evr y t (S s - t)).
  { apply evr_ext. intros i Hi. rewrite N by lia. destruct (Nat.leb_spec t i), (Nat.ltb_spec i (S s)); try lia. auto. }
  assert (P3 : evr w' (S s) (n - S s) = evr w (S s) (n - S s)).
  { apply evr_ext. intros i Hi. rewrite N by lia. destruct (Nat.ltb_spec i (S s)); [lia|]. now rewrite andb_false_r. }
  assert (Py : ev y = evr y t (S s - t)).
  { rewrite SP. rewrite (evr_zero y 0 t), (evr_zero y (S s)); [cbn [app]; apply app_nil_r| |]; intros i Hi; apply Z; lia. }
  split.
  - split; [auto|]. rewrite (SP w'), (SP w), P1, P2, P3, <- Py.
    apply (same_trans _ _ _ (evr w 0 t ++ (s :: evr w t (S s - t)) ++ evr w (S s) (n - S s))); [apply same_app_l, same_app_r; auto|].
    cbn [app]. change (s :: evr w 0 t ++ ?a) with ((s :: evr w 0 t) ++ a). change (s :: evr w t (S s - t) ++ ?a) with ([s] ++ evr w t (S s - t) ++ a).
    rewrite app_assoc. apply same_app_r. apply same_commute; [auto|apply (evr_over n B off up W G); auto; lia|].
    intros z I. apply (evr_letter n B off up W G) in I; [|auto|lia]. destruct I as (j & A & C). assert (Hz : z < t) by lia. split; [lia|].
    destruct (gg_star_commute _ _ _ _ _ G z s Hs Hz) as [_ Z2]. unfold coxeter. rewrite Z2. auto.
  - rewrite (SP w'), (SP w), P1, P2, P3, <- Py. rewrite !app_length. lia.
Qed.
Lemma inner_left_mult_ok w u s : rep w u -> s < n -> gives (inner_left_mult W w s)
  (fun '(w', c) => rep w' (s :: u) /\ c = (Z.of_nat (L w') - Z.of_nat (L w))%Z) sure.
Proof.
  intros [V E] Hs. unfold inner_left_mult. pose proof (gg_star _ _ _ _ _ G s Hs) as St.
  apply (gives_run _ _ _ _ (rep_inner_gen s Hs)). intros sw0 [R0 E0]. rewrite (star_get n B off up W G) by auto. cbn [bind].
  set (t := nth s (w_min_star W) 0) in *.
  apply (gives_run _ _ (fun '(sw, l) => rep sw (s :: evr w t (S s - t)) /\ l = (Z.of_nat (L sw) - Z.of_nat (length (evr w t (S s - t)%nat)))%Z)).
  - eapply gives_imp; [|apply (gives_range (fun k '(sw, l) => rep sw (s :: evr w t (k - t)) /\ l = (Z.of_nat (L sw) - Z.of_nat (length (evr w t (k - t)%nat)))%Z))].
    + intros [sw l]. replace (t + (S s - t) - t) with (S s - t) by lia. auto.
    + rewrite Nat.sub_diag. change (evr w t 0) with (@nil nat). split; [auto|]. rewrite E0. auto.
    + intros i [sw l] Hi [R1 L1]. apply (gives_run _ _ _ _ (mult_by_piece_ok sw _ w i R1 V ltac:(lia))). intros [sw' c] [R2 C2]. cbn [gives].
      replace (S i - t) with (S (i - t)) by lia. rewrite evr_S. replace (t + (i - t)) with i by lia. split; [exact R2|]. rewrite app_length. lia.
  - intros [sw l] [R1 L1]. pose proof V as [VL VS].
    apply (gives_run _ _ (fun w' => length w' = n /\ forall i, i < n -> nth i w' 0 = if (t <=? i) && (i <? S s) then nth i sw 0 else nth i w 0)).
    + eapply gives_imp; [|apply (gives_range (fun k w' => length w' = n /\ forall i, i < n -> nth i w' 0 = if (t <=? i) && (i <? k) then nth i sw 0 else nth i w 0))].
      * intros w'. replace (t + (S s - t)) with (S s) by lia. auto.
      * split; [auto|]. intros i Hi. destruct (Nat.leb_spec t i), (Nat.ltb_spec i t); try lia; auto.
      * intros i w1 Hi [L2 N2]. pose proof R1 as [[VL1 _] _]. rewrite (vget_at sw i 0) by lia. cbn [bind]. rewrite vput_upd by lia. cbn [gives].
        split; [rewrite upd_length; lia|]. intros j Hj. rewrite upd_nth by lia. rewrite N2 by auto. destruct (Nat.eqb_spec j i) as [Q|Q].
        -- subst j. destruct (Nat.leb_spec t i), (Nat.ltb_spec i (S i)); try lia. auto.
        -- destruct (Nat.ltb_spec j i), (Nat.ltb_spec j (S i)); try lia; auto.
    + intros w' [L2 N2]. cbn [gives]. destruct (left_compose w s sw w' V Hs R1 L2 N2) as [R3 L3]. fold t in L3. split.
      * apply (rep_same _ _ _ R3). now apply same_cons.
      * lia.
Qed.
End Ops.
