From Coq Require Import List Arith Bool Lia Relations Sorted.
From Verif Require Import VecModel VecProofs PermProofs SetModel SetProofs PreorderModel PreorderSpec PreorderProofs.
Import ListNotations.
Open Scope nat_scope.
Open Scope vec_scope.

Section G.
Variable g : list (list nat).
Hypothesis wf : bounded g.
Let n := length g.
Lemma arrow_lt x y : arrow g x y -> x < n /\ y < n.
Proof.
  intros (l & E & I). split; [eapply get_lt; exact E|]. eapply wf; [eapply nth_error_In; exact E|exact I].
Qed.
Lemma path_lt x y : path g x y -> x < n /\ y < n.
Proof. induction 1; [apply arrow_lt; auto|tauto]. Qed.
Lemma forest_id : forest n (seq 0 n) (fun x => x) (fun _ => 0).
Proof.
  split.
  - apply seq_length.
  - intros x m. rewrite get_seq. destruct (Nat.ltb_spec x n); [|discriminate]. intros Q. injection Q as <-. auto.
  - intros x m. rewrite get_seq. destruct (Nat.ltb_spec x n); [|discriminate]. intros Q. injection Q as <-. cbn. lia.
  - auto.
  - intros x Hx. split; [exact Hx|]. rewrite get_seq. destruct (Nat.ltb_spec x n); [reflexivity|lia].
Qed.

Lemma make_ok : exists p, po_make g = Some p /\ refs p = seq 0 n /\ ready p = false /\
  inv n (arrow g) p (fun x => x) (fun _ => 0) /\ forall x b, get (outs p) x = Some b -> forall y, bs_mem b y = true <-> arrow g x y.
Proof.
  unfold po_make. fold n.
  match goal with |- context [for_up n 0 ?body ?st] => destruct (for_up_rule (fun i o => length o = n /\
    forall x b, x < i -> get o x = Some b -> length b = n /\ forall y, bs_mem b y = true <-> arrow g x y) n 0 body st) as (o & E & L & R) end.
  - split; [apply repeat_length|intros; lia].
  - intros i o Hi (L & R). destruct (get_some g i) as [l El]; [fold n; lia|]. rewrite El.
    destruct (of_list_ok n l) as (b & Eb & Lb & Mb).
    { intros x Hx. eapply wf; [eapply get_In; exact El|exact Hx]. }
    rewrite Eb. destruct (put_spec o i b) as (o' & Eo & Lo & Go); [lia|]. exists o'. split; [exact Eo|]. split; [lia|].
    intros x c Hx. rewrite Go. destruct (Nat.eqb_spec x i) as [->|]; [|apply R; lia]. intros Q. injection Q as <-. split; [exact Lb|].
    intros y. rewrite Mb. split; [intros I; exists l; auto|]. intros (l' & El' & I). unfold get in El. congruence.
  - rewrite E. eexists. split; [reflexivity|]. cbn [refs ready outs]. split; [reflexivity|]. split; [reflexivity|].
    assert (R' : forall x b, get o x = Some b -> length b = n /\ forall y, bs_mem b y = true <-> arrow g x y).
    { intros x b Gx. apply R; [apply get_lt in Gx; lia|exact Gx]. }
    split; [|intros x b Gx; apply (R' x b Gx)].
    split; cbn [refs outs].
    + exact L.
    + apply forest_id.
    + intros x b Gx _. apply (R' x b Gx).
    + intros x b Gx Q. congruence.
    + intros x y Hx (b & Gb & Mb). cbn in Gb. apply t_step. apply (R' x b Gb). exact Mb.
    + intros x Hx Q. congruence.
    + intros x y A. destruct (get_some o x) as [b Gb]; [rewrite L; apply arrow_lt in A; tauto|]. exists b. split; [exact Gb|]. apply (R' x b Gb). exact A.
Qed.

Lemma make_relates p : po_make g = Some p -> computes (relates p) (arrow g).
Proof.
  intros Ep. destruct make_ok as (p' & E & A & B & I & M). rewrite Ep in E. injection E as <-.
  intros x y. destruct (relates_rel n (arrow g) p _ _ I x y) as (r & Er & Rr). exists r. split; [exact Er|]. rewrite Rr. split.
  - intros [Hx (b & Gb & Mb)]. apply (M x b Gb). exact Mb.
  - intros H. destruct (arrow_lt x y H) as [Hx Hy]. split; [exact Hx|]. apply (i_base _ _ _ _ _ I). exact H.
Qed.
Lemma closure_ok p : po_make g = Some p -> exists q R d, closure p = Some q /\ ready q = true /\ closed n (arrow g) q R d.
Proof.
  intros Ep. destruct make_ok as (p' & E & A & B & I & M). rewrite Ep in E. injection E as <-. unfold closure. rewrite B.
  assert (Sz : size p = n) by (unfold size; rewrite A; apply seq_length). rewrite Sz.
  exact (passes_ok n (arrow g) _ p _ _ I (measure_bound n p)).
Qed.
Lemma closure_relates p q : po_make g = Some p -> closure p = Some q -> computes (relates q) (path g).
Proof.
  intros Ep Eq. destruct (closure_ok p Ep) as (q' & R & d & E & T & C). rewrite Eq in E. injection E as <-.
  intros x y. destruct (relates_rel n (arrow g) q R d (proj1 C) x y) as (r & Er & Rr). exists r. split; [exact Er|]. rewrite Rr. split.
  - intros [Hx H]. apply (closed_rel n (arrow g) arrow_lt q R d C x y Hx). exact H.
  - intros H. destruct (path_lt x y H) as [Hx _]. split; [exact Hx|]. apply (closed_rel n (arrow g) arrow_lt q R d C x y Hx). exact H.
Qed.

Lemma NoDup_filter_seq (f : nat -> bool) a k : NoDup (filter f (seq a k)).
Proof. apply NoDup_filter, seq_NoDup. Qed.
Lemma NoDup_concat_map (f : nat -> list nat) l : NoDup l -> (forall x, In x l -> NoDup (f x)) ->
  (forall x y z, In x l -> In y l -> In z (f x) -> In z (f y) -> x = y) -> NoDup (concat (map f l)).
Proof.
  induction l as [|x l IH]; intros N F D; [constructor|]. cbn [map concat]. inversion N; subst.
  assert (App : forall a b : list nat, NoDup a -> NoDup b -> (forall z, In z a -> ~ In z b) -> NoDup (a ++ b)).
  { clear. induction a as [|u a IH]; intros b Na Nb H; [exact Nb|]. cbn. inversion Na; subst. constructor.
    - rewrite in_app_iff. intros [A|A]; [auto|]. apply (H u); [left; auto|exact A].
    - apply IH; auto. intros z Hz. apply H. right. exact Hz. }
  apply App; [apply F; left; auto| |].
  - apply IH; auto; intros; [apply F; right; auto|eapply D; eauto; right; auto].
  - intros z Hz I. apply in_concat in I. destruct I as (m & Im & Iz). apply in_map_iff in Im. destruct Im as (w & <- & Iw).
    assert (x = w) by (eapply D; eauto; [left; auto|right; auto]). congruence.
Qed.

Lemma elems_sorted (b : bset) (f : nat -> bool) : StronglySorted lt (filter f (bs_elems b)).
Proof.
  unfold bs_elems. generalize 0 as a. induction (length b) as [|k IH]; intros a; cbn [seq filter]; [constructor|].
  destruct (bs_mem b a); [|apply IH]. cbn [filter]. destruct (f a); [|apply IH]. constructor; [apply IH|]. apply Forall_forall. intros x Hx.
  apply filter_In in Hx. destruct Hx as [Hx _]. apply filter_In in Hx. destruct Hx as [Hx _]. apply in_seq in Hx. lia.
Qed.

Lemma cliques_ok p q : po_make g = Some p -> closure p = Some q -> exists L, cliques q = Some L /\
  (forall l, In l L -> l <> [] /\ StronglySorted lt l /\ forall x y, In x l -> (In y l <-> mutual g x y)) /\
  (forall x, path g x x -> exists l, In l L /\ In x l) /\ NoDup (concat L).
Proof.
  intros Ep Eq. destruct (closure_ok p Ep) as (q' & R & d & E & T & C). rewrite Eq in E. injection E as <-.
  assert (I := proj1 C). assert (F := i_forest _ _ _ _ _ I). assert (Sz : size q = n) by (apply (f_len _ _ _ _ F)).
  unfold cliques. rewrite Sz.
  set (row := fun x => match get (outs q) x with Some b => b | None => [] end).
  set (cl := fun x => filter (fun y => R y =? x) (bs_elems (row x))).
  set (P := fun x => (R x =? x) && bs_mem (row x) x).
  assert (Row : forall x, x < n -> get (outs q) x = Some (row x)).
  { intros x Hx. destruct (get_some (outs q) x) as [b Gb]; [rewrite (i_len _ _ _ _ _ I); exact Hx|]. unfold row. rewrite Gb. reflexivity. }
  match goal with |- context [for_up n 0 ?body ?st] => destruct (for_up_rule (fun i res => res = map cl (filter P (seq 0 i))) n 0 body st) as (L & EL & RL) end.
  - reflexivity.
  - intros x res Hx ->. rewrite seq_S, filter_app, map_app. cbn [filter plus].
    destruct (get_some (refs q) x) as [m Em]; [rewrite (f_len _ _ _ _ F); lia|]. rewrite Em.
    assert (Rt := forest_root_iff n (refs q) R d x F ltac:(lia)). rewrite Em in Rt.
    change (P x) with ((R x =? x) && bs_mem (row x) x). destruct (Nat.eqb_spec m x) as [->|Nm].
    + rewrite (proj1 Rt eq_refl), Nat.eqb_refl. cbn [andb]. rewrite (Row x ltac:(lia)). destruct (bs_mem (row x) x) eqn:Mx.
      * match goal with |- context [for_each ?ll ?body ?st] => destruct (for_each_rule (fun pre l => l = filter (fun y => R y =? x) pre) ll body st) as (l & El & Rl) end.
        -- reflexivity.
        -- intros pre y suf l Epre ->. unfold root. rewrite Sz, (root_ok n (refs q) R d y F).
           ++ eexists. split; [reflexivity|]. rewrite filter_app. cbn [filter]. destruct (R y =? x); [reflexivity|apply eq_sym, app_nil_r].
           ++ assert (Hy : In y (bs_elems (row x))) by (rewrite Epre; apply in_or_app; right; left; auto). apply elems_In, mem_lt in Hy.
              rewrite (i_rows _ _ _ _ _ I x (row x)) in Hy; [exact Hy|apply Row; lia|tauto].
        -- rewrite El. eexists. split; [reflexivity|]. cbn [map]. subst l. reflexivity.
      * eexists. split; [reflexivity|]. cbn [map]. rewrite app_nil_r. reflexivity.
    + destruct (Nat.eqb_spec (R x) x) as [Q|Q]; [apply Rt in Q; congruence|]. cbn [andb map]. rewrite app_nil_r. eauto.
  - rewrite EL. exists L. split; [reflexivity|]. cbn [plus] in RL.
    assert (Cl : forall x, x < n -> P x = true -> path g x x /\ forall y, In y (cl x) <-> mutual g x y).
    { intros x Hx HP. unfold P in HP. apply andb_true_iff in HP. destruct HP as [H1 H2]. apply Nat.eqb_eq in H1.
      assert (Rx : forall y, bs_mem (row x) y = true <-> path g x y).
      { intros y. unfold path. rewrite <- (closed_rel n (arrow g) arrow_lt q R d C x y Hx). symmetry. apply rel_mem. rewrite H1. apply Row, Hx. }
      split; [apply Rx; exact H2|]. intros y. unfold cl. rewrite filter_In, elems_In, Nat.eqb_eq, Rx. split.
      - intros [A B]. split; [exact A|]. destruct (Nat.eq_dec y x) as [->|N]; [exact A|].
        destruct (path_lt x y A) as [_ Hy]. destruct (i_eqv _ _ _ _ _ I y Hy) as [D _]; [congruence|]. rewrite B in D. exact D.
      - intros [A B]. split; [exact A|]. rewrite <- H1. destruct (path_lt x y A) as [_ Hy].
        symmetry. apply (closed_mutual n (arrow g) arrow_lt q R d C x y Hx Hy A B). }
    assert (Tr : forall x y z, path g x y -> path g y z -> path g x z) by (intros; eapply t_trans; eauto).
    split; [|split].
    + intros l Il. rewrite RL in Il. apply in_map_iff in Il. destruct Il as (x & <- & Ix). apply filter_In in Ix. destruct Ix as [Ix HP]. apply in_seq in Ix.
      destruct (Cl x ltac:(lia) HP) as [A B]. split; [|split].
      * intros Q. assert (D : In x (cl x)) by (apply B; split; exact A). rewrite Q in D. destruct D.
      * apply elems_sorted.
      * intros u v Hu. apply B in Hu. destruct Hu as [U1 U2]. rewrite B. split; intros [V1 V2]; split; eauto.
    + intros x H. destruct (path_lt x x H) as [Hx _]. destruct (f_R _ _ _ _ F x Hx) as [A B]. assert (RR := root_idem n (arrow g) q R d x I Hx).
      assert (Mu : path g (R x) x /\ path g x (R x)).
      { destruct (Nat.eq_dec (R x) x) as [->|N]; [auto|]. destruct (i_eqv _ _ _ _ _ I x Hx N). auto. }
      assert (HP : P (R x) = true).
      { unfold P. rewrite RR, Nat.eqb_refl. cbn [andb]. apply (rel_mem q R (R x) (R x)); [rewrite RR; apply Row, A|].
        apply (closed_rel n (arrow g) arrow_lt q R d C _ _ A). eapply t_trans; apply Mu. }
      exists (cl (R x)). split.
      * rewrite RL. apply in_map. apply filter_In. split; [apply in_seq; lia|exact HP].
      * apply (Cl (R x) A HP). split; apply Mu.
    + rewrite RL. apply NoDup_concat_map.
      * apply NoDup_filter_seq.
      * intros x _. unfold cl, bs_elems. apply NoDup_filter, NoDup_filter, seq_NoDup.
      * intros x y z _ _ A B. unfold cl in A, B. apply filter_In in A, B. destruct A as [_ A], B as [_ B]. apply Nat.eqb_eq in A, B. congruence.
Qed.

(** the rows after reversal *)
Lemma reversed_rows p : length (outs p) = n -> size p = n -> (forall x b, get (outs p) x = Some b -> length b <= n) ->
  exists o, reversed p = Some (mk_po o (if ready p then refs p else seq 0 n) (ready p)) /\ length o = n /\
    (forall x c, get o x = Some c -> length c = n) /\
    forall x y b c, get o x = Some c -> get (outs p) y = Some b -> (bs_mem c y = true <-> bs_mem b x = true).
Proof.
  intros L Sz Rw. unfold reversed. rewrite Sz. cbn [outs po_empty].
  match goal with |- context [for_up n 0 ?body ?st] => destruct (for_up_rule (fun i o => length o = n /\ forall x c, get o x = Some c ->
    length c = n /\ forall y, bs_mem c y = true <-> y < i /\ exists b, get (outs p) y = Some b /\ bs_mem b x = true) n 0 body st) as (o & Eo & Lo & Ro) end.
  - split; [apply repeat_length|]. intros x c. rewrite get_repeat. destruct (x <? n); [|discriminate]. intros Q. injection Q as <-.
    split; [apply new_len|]. intros y. rewrite mem_new. split; [discriminate|lia].
  - intros i o Hi (Lo & Ro). destruct (get_some (outs p) i) as [b Gb]; [lia|]. rewrite Gb.
    destruct (for_each_rule (fun pre o => length o = n /\ forall x c, get o x = Some c ->
      length c = n /\ forall y, bs_mem c y = true <-> (y < i /\ exists b, get (outs p) y = Some b /\ bs_mem b x = true) \/ (y = i /\ In x pre))
      (bs_elems b) (fun x o => do c <- get o x; do c <- bs_insert c i; put o x c) o) as (o' & Eo & Lo' & Ro').
    + split; [exact Lo|]. intros x c Gx. destruct (Ro x c Gx) as [A B]. split; [exact A|]. intros y. rewrite B. cbn [In]. tauto.
    + intros pre x suf o1 Epre (L1 & R1). assert (Hx : bs_mem b x = true) by (apply elems_In; rewrite Epre; apply in_or_app; right; left; auto).
      assert (Hxn : x < n) by (apply mem_lt in Hx; specialize (Rw i b Gb); lia).
      destruct (get_some o1 x) as [c Gc]; [lia|]. rewrite Gc. destruct (R1 x c Gc) as [Lc Mc].
      destruct (insert_ok c i) as (c' & Ec' & Lc' & Mc'); [lia|]. rewrite Ec'.
      destruct (put_spec o1 x c') as (o2 & E2 & L2 & G2); [lia|]. exists o2. split; [exact E2|]. split; [lia|].
      intros z cz. rewrite G2. destruct (Nat.eqb_spec z x) as [->|Nz].
      * intros Q. injection Q as <-. split; [lia|]. intros y. rewrite Mc', orb_true_iff, Nat.eqb_eq, Mc, in_app_iff. cbn [In]. tauto.
      * intros Gz. destruct (R1 z cz Gz) as [A B]. split; [exact A|]. intros y. rewrite B, in_app_iff. cbn [In]. intuition congruence.
    + exists o'. split; [exact Eo|]. split; [exact Lo'|]. intros x c Gx. destruct (Ro' x c Gx) as [A B]. split; [exact A|]. intros y. rewrite B. split.
      * intros [[P Q]|[-> Q]]; [split; [lia|exact Q]|]. split; [lia|]. exists b. split; [exact Gb|]. apply elems_In. exact Q.
      * intros [P (b' & Gb' & Q)]. destruct (Nat.eq_dec y i) as [->|]; [|left; split; [lia|eauto]]. right. split; [reflexivity|].
        rewrite Gb in Gb'. injection Gb' as <-. apply elems_In. exact Q.
  - rewrite Eo. exists o. split; [reflexivity|]. split; [exact Lo|]. split; [intros x c Gx; apply (Ro x c Gx)|]. intros x y b c Gx Gy. destruct (Ro x c Gx) as [_ B]. rewrite B. split.
    + intros [_ (b' & Gb' & Q)]. congruence.
    + intros Q. split; [|eauto]. apply get_lt in Gy. lia.
Qed.
Lemma reversed_ok p R d E : inv n E p R d -> refs p = seq 0 n \/ ready p = true ->
  exists q, reversed p = Some q /\ forall x y, exists r, relates q x y = Some r /\
    (r = true <-> x < n /\ R y = y /\ rel p R y (R x)).
Proof.
  intros I H. assert (F := i_forest _ _ _ _ _ I). assert (Sz : size p = n) by (apply (f_len _ _ _ _ F)).
  destruct (reversed_rows p (i_len _ _ _ _ _ I) Sz) as (o & Eo & Lo & Lc & Ro).
  - intros x b Gx. destruct (Nat.eq_dec (R x) x) as [A|A].
    + rewrite (i_rows _ _ _ _ _ I x b Gx A). lia.
    + rewrite (i_gone _ _ _ _ _ I x b Gx A). cbn. lia.
  - rewrite Eo. eexists. split; [reflexivity|].
    assert (Refs : (if ready p then refs p else seq 0 n) = refs p) by (destruct (ready p); [reflexivity|]; destruct H; congruence). rewrite Refs.
    intros x y. unfold relates, root, size. cbn [refs outs]. rewrite (f_len _ _ _ _ F).
    destruct (Nat.ltb_spec x n) as [Hx|Hx]; [|exists false; split; [reflexivity|]; split; [discriminate|lia]].
    rewrite (root_ok n (refs p) R d x F Hx). destruct (f_R _ _ _ _ F x Hx) as [A B].
    destruct (get_some o (R x)) as [c Gc]; [lia|]. rewrite Gc. eexists. split; [reflexivity|].
    destruct (Nat.lt_ge_cases y n) as [Hy|Hy].
    + destruct (get_some (outs p) y) as [b Gb]; [rewrite (i_len _ _ _ _ _ I); exact Hy|]. rewrite (Ro (R x) y b c Gc Gb). split.
      * intros M. split; [exact Hx|]. destruct (Nat.eq_dec (R y) y) as [Q|Q].
        -- split; [exact Q|]. exists b. split; [congruence|exact M].
        -- rewrite (i_gone _ _ _ _ _ I y b Gb Q) in M. destruct (R x); discriminate.
      * intros (_ & Q & (b' & Gb' & M)). congruence.
    + split.
      * intros M. exfalso. apply mem_lt in M. rewrite (Lc _ _ Gc) in M. lia.
      * intros (_ & Q & (b & Gb & M)). apply get_lt in Gb. rewrite (i_len _ _ _ _ _ I) in Gb. lia.
Qed.
End G.

Lemma seq_root n x : x < n -> root_from n (seq 0 n) x = Some x.
Proof.
  intros H. destruct n; [lia|]. unfold root_from. rewrite get_seq. destruct (Nat.ltb_spec x (S n)); [|lia]. cbn [plus]. rewrite Nat.eqb_refl. reflexivity.
Qed.
Lemma empty_relates_at n x y : relates (po_empty n) x y = Some false.
Proof.
  unfold relates, root, po_empty, size. cbn [refs outs]. rewrite seq_length. destruct (Nat.ltb_spec x n); [|reflexivity].
  rewrite seq_root, get_repeat by auto. destruct (Nat.ltb_spec x n); [|lia]. rewrite mem_new. reflexivity.
Qed.
Lemma reversed_before g : bounded g -> exists p q, po_make g = Some p /\ reversed p = Some q /\ computes (relates q) (fun x y => arrow g y x).
Proof.
  intros W. destruct (make_ok g W) as (p & E & A & B & I & M). destruct (reversed_ok g p _ _ _ I (or_introl A)) as (q & Eq & Rq).
  exists p, q. split; [exact E|]. split; [exact Eq|]. intros x y. destruct (Rq x y) as (r & Er & H). exists r. split; [exact Er|]. rewrite H. split.
  - intros (_ & _ & (b & Gb & Mb)). apply (M y b Gb). exact Mb.
  - intros K. destruct (arrow_lt g W y x K) as [H1 H2]. split; [exact H2|]. split; [reflexivity|]. apply (i_base _ _ _ _ _ I). exact K.
Qed.
Lemma reversed_exact g : bounded g -> exists p q r, po_make g = Some p /\ closure p = Some q /\ reversed q = Some r /\
  computes (relates r) (fun x y => path g y x /\ root q y = Some y).
Proof.
  intros W. destruct (make_ok g W) as (p & E & _). destruct (closure_ok g W p E) as (q & R & d & Eq & T & C). assert (I := proj1 C).
  assert (F := i_forest _ _ _ _ _ I).
  destruct (reversed_ok g q _ _ _ I (or_intror T)) as (r & Er & Rr). exists p, q, r. split; [exact E|]. split; [exact Eq|]. split; [exact Er|].
  intros x y. destruct (Rr x y) as (v & Ev & H). exists v. split; [exact Ev|]. rewrite H.
  assert (Sz : size q = length g) by (apply (f_len _ _ _ _ F)).
  assert (Q : forall a, a < length g -> path g a (R a) /\ path g (R a) a \/ R a = a).
  { intros a Ha. destruct (Nat.eq_dec (R a) a) as [K|K]; [auto|]. left. apply (i_eqv _ _ _ _ _ I a Ha K). }
  split.
  - intros (Hx & Ry & K). assert (Hy : y < length g).
    { destruct K as (b & Gb & _). rewrite Ry in Gb. apply get_lt in Gb. rewrite (i_len _ _ _ _ _ I) in Gb. exact Gb. }
    apply (closed_rel _ _ (arrow_lt g W) q R d C y _ Hy) in K. split.
    + destruct (Q x Hx) as [[_ K2]|K2]; [eapply t_trans; [exact K|exact K2]|rewrite K2 in K; exact K].
    + unfold root. rewrite Sz, (root_ok _ _ R d y F Hy). congruence.
  - intros [K Ry]. destruct (path_lt g W y x K) as [Hy Hx]. unfold root in Ry. rewrite Sz, (root_ok _ _ R d y F Hy) in Ry. injection Ry as Ry.
    split; [exact Hx|]. split; [exact Ry|]. apply (closed_rel _ _ (arrow_lt g W) q R d C y _ Hy).
    destruct (Q x Hx) as [[K1 _]|K2]; [eapply t_trans; [exact K|exact K1]|rewrite K2; exact K].
Qed.
Lemma reversed_after g : bounded g -> (forall x y, mutual g x y -> x = y) ->
  exists p q r, po_make g = Some p /\ closure p = Some q /\ reversed q = Some r /\ computes (relates r) (fun x y => path g y x).
Proof.
  intros W A. destruct (reversed_exact g W) as (p & q & r & E & Eq & Er & H). exists p, q, r. split; [exact E|]. split; [exact Eq|]. split; [exact Er|].
  intros x y. destruct (H x y) as (v & Ev & K). exists v. split; [exact Ev|]. rewrite K. split; [tauto|]. intros P. split; [exact P|].
  destruct (closure_ok g W p E) as (q' & R & d & Eq' & T & C). rewrite Eq in Eq'. injection Eq' as <-. assert (I := proj1 C). assert (F := i_forest _ _ _ _ _ I).
  destruct (path_lt g W y x P) as [Hy _]. unfold root, size. rewrite (f_len _ _ _ _ F), (root_ok _ _ R d y F Hy). f_equal.
  destruct (Nat.eq_dec (R y) y) as [Q|Q]; [exact Q|]. symmetry. apply A. apply (i_eqv _ _ _ _ _ I y Hy Q).
Qed.
