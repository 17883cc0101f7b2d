(** Proofs about partitions and the iterator over their classes. *)

From Coq Require Import List Arith Bool Lia.
From Verif Require Import VecModel VecProofs PermModel PermProofs PartModel PartSpec PartOrbits.
Import ListNotations.
Open Scope nat_scope.
Open Scope vec_scope.

(** ** Partitions from functions *)

Lemma lookup_cons k v m x : lookup ((k, v) :: m) x = if k =? x then Some v else lookup m x.
Proof. reflexivity. Qed.

Lemma of_function_ok f : exists p, of_function f = Some p /\
  classifies (length f) (fun i j => nth_error f i = nth_error f j) (d_class p) (d_classRep p).
Proof.
  unfold of_function. set (n := length f).
  match goal with |- exists _, match for_up n 0 ?body ?st with _ => _ end = _ /\ _ =>
    destruct (for_up_rule (fun i '(p, s, val) => i <= n /\ length (d_class p) = n /\ s = length (d_classRep p) /\
       (forall x k, lookup val x = Some k -> exists r, get (d_classRep p) k = Some r /\ get f r = Some x) /\
       (forall y x, y < i -> get f y = Some x -> exists k r, lookup val x = Some k /\ get (d_class p) y = Some k /\ get (d_classRep p) k = Some r /\ r <= y) /\
       (forall k r, get (d_classRep p) k = Some r -> r < i /\ get (d_class p) r = Some k /\ exists x, get f r = Some x /\ lookup val x = Some k) /\
       (forall k l r s, k < l -> get (d_classRep p) k = Some r -> get (d_classRep p) l = Some s -> r < s)) n 0 body st)
      as ([[p s] val] & E & _ & A1 & A2 & A3 & A4 & A5 & A6) end.
  - cbn. split; [lia|]. split; [apply repeat_length|]. split; [reflexivity|]. split; [discriminate|]. split; [intros; lia|].
    split; intros k; intros; destruct k; discriminate.
  - intros i [[p s] val] Hi (A0 & A1 & A2 & A3 & A4 & A5 & A6). destruct (get_some f i ltac:(unfold n in Hi; lia)) as [x Ex]. rewrite Ex.
    unfold map_insert. destruct (lookup val x) as [c|] eqn:El.
    + destruct (addToClass_ok p c i ltac:(lia)) as (p' & Ep & Rp & Lp & Gp). rewrite Ep. eexists. split; [reflexivity|].
      cbn beta iota. rewrite Rp, Lp. split; [lia|]. split; [exact A1|]. split; [exact A2|]. split; [exact A3|]. split; [|split; [|exact A6]].
      * intros y x' Hy Ey. rewrite Gp. destruct (Nat.eqb_spec y i) as [->|].
        -- assert (x' = x) as -> by congruence. destruct (A3 x c El) as (r & B1 & B2). destruct (A5 c r B1) as (B3 & _). exists c, r. repeat split; auto; lia.
        -- apply A4; auto. lia.
      * intros k r G. destruct (A5 k r G) as (B1 & B2 & B3). split; [lia|]. split; [|exact B3]. rewrite Gp.
        destruct (Nat.eqb_spec r i) as [->|]; [lia|exact B2].
    + destruct (new_class_ok p i ltac:(lia)) as (p' & Ep & Rp & Lp & Gp). rewrite Ep. eexists. split; [reflexivity|].
      cbn beta iota. rewrite Rp, Lp. rewrite app_length. cbn [length]. rewrite <- A2.
      assert (Gk : forall k r, get (d_classRep p) k = Some r -> get (d_classRep p ++ [i]) k = Some r).
      { intros k r G. rewrite get_app. destruct (Nat.ltb_spec k (length (d_classRep p))) as [|L]; [exact G|]. apply get_lt in G. lia. }
      assert (Gl : get (d_classRep p ++ [i]) s = Some i) by (rewrite get_app, A2, Nat.ltb_irrefl, Nat.sub_diag; reflexivity).
      assert (Gi : forall k r, get (d_classRep p ++ [i]) k = Some r -> get (d_classRep p) k = Some r \/ k = s /\ r = i).
      { intros k r G. rewrite get_app in G. destruct (Nat.ltb_spec k (length (d_classRep p))) as [|L]; [left; exact G|]. right.
        destruct (k - length (d_classRep p)) as [|j] eqn:Ek; [|destruct j; discriminate]. cbn in G. split; [lia|congruence]. }
      split; [lia|]. split; [exact A1|]. split; [lia|]. split; [|split; [|split]].
      * intros x' k. rewrite lookup_cons. destruct (Nat.eqb_spec x x') as [<-|].
        -- intros H. injection H as <-. exists i. auto.
        -- intros H. destruct (A3 x' k H) as (r & B1 & B2). exists r. auto.
      * intros y x' Hy Ey. rewrite Gp, lookup_cons, <- A2. destruct (Nat.eqb_spec y i) as [->|].
        -- assert (x' = x) as -> by congruence. rewrite Nat.eqb_refl. exists s, i. auto.
        -- destruct (A4 y x' ltac:(lia) Ey) as (k & r & B1 & B2 & B3 & B4). exists k, r. destruct (Nat.eqb_spec x x') as [<-|]; [congruence|]. auto.
      * intros k r G. rewrite Gp, <- A2. destruct (Gi k r G) as [G'|[-> ->]].
        -- destruct (A5 k r G') as (B1 & B2 & x' & B3 & B4). split; [lia|]. destruct (Nat.eqb_spec r i) as [->|]; [lia|]. split; [exact B2|].
           exists x'. split; [exact B3|]. rewrite lookup_cons. destruct (Nat.eqb_spec x x') as [<-|]; [congruence|exact B4].
        -- split; [lia|]. rewrite Nat.eqb_refl. split; [reflexivity|]. exists x. split; [exact Ex|]. rewrite lookup_cons, Nat.eqb_refl. reflexivity.
      * intros k l r t Hkl Gk' Gl'. destruct (Gi k r Gk') as [G1|[-> ->]], (Gi l t Gl') as [G2|[-> ->]].
        -- eapply A6; eauto.
        -- apply (A5 k r G1).
        -- apply get_lt in G2. lia.
        -- lia.
  - rewrite E. exists p. split; [reflexivity|]. split; [exact A1|]. split; [|split; [|split]].
    + intros x y c d Gx Gy.
      assert (Lx : x < n) by (rewrite <- A1; eapply get_lt; exact Gx). assert (Ly : y < n) by (rewrite <- A1; eapply get_lt; exact Gy).
      destruct (get_some f x Lx) as [u Eu], (get_some f y Ly) as [v Ev].
      destruct (A4 x u Lx Eu) as (c' & r & B1 & B2 & B3 & _). destruct (A4 y v Ly Ev) as (d' & t & C1 & C2 & C3 & _).
      unfold get in *. assert (c' = c) as -> by congruence. assert (d' = d) as -> by congruence. rewrite Eu, Ev. split.
      * intros ->. destruct (A3 _ _ B1) as (r1 & D1 & D2), (A3 _ _ C1) as (r2 & D3 & D4). congruence.
      * intros Q. injection Q as ->. congruence.
    + intros x c G. assert (Lx : x < n) by (rewrite <- A1; eapply get_lt; exact G). destruct (get_some f x Lx) as [u Eu].
      destruct (A4 x u Lx Eu) as (c' & r & B1 & B2 & B3 & B4). exists r. split; [|exact B4]. unfold get in *. congruence.
    + intros c r G. apply (A5 c r G).
    + exact A6.
Qed.

Lemma of_classes_ok f k : (forall c, In c f <-> c < k) ->
  exists p, of_classes f = Some p /\ d_class p = f /\ length (d_classRep p) = k /\
    forall c r, nth_error (d_classRep p) c = Some r -> nth_error f r = Some c /\ forall j, j < r -> nth_error f j <> Some c.
Proof.
  intros H. unfold of_classes.
  match goal with |- exists _, match for_up _ 0 ?body ?st with _ => _ end = _ /\ _ =>
    destruct (for_up_rule (fun i (val : list (nat * nat)) => NoDup (map fst val) /\
       (forall x r, In (x, r) val <-> r < i /\ get f r = Some x /\ forall j, j < r -> get f j <> Some x)) (length f) 0 body st)
      as (val & E & A1 & A2) end.
  - cbn. split; [constructor|]. intros x r. split; [tauto|]. intros; lia.
  - intros i val Hi (A1 & A2). destruct (get_some f i ltac:(lia)) as [x Ex]. rewrite Ex. eexists. split; [reflexivity|].
    assert (LK : forall m y, lookup m y = None <-> forall r, ~ In (y, r) m).
    { clear. induction m as [|[a b] m IH]; intros y; [cbn; split; [tauto|reflexivity]|]. rewrite lookup_cons. destruct (Nat.eqb_spec a y) as [->|N].
      - split; [discriminate|]. intros Q. exfalso. apply (Q b). left. reflexivity.
      - rewrite IH. split; intros Q r; [intros [Z|Z]; [congruence|exact (Q r Z)]|]. intros Z. apply (Q r). right. exact Z. }
    assert (First : forall y, (exists j, j < i /\ get f j = Some y) -> exists r, In (y, r) val).
    { intros y (j & Hj & Ej). revert Hj Ej. pattern j. apply (well_founded_induction Wf_nat.lt_wf). clear j. intros j IH Hj Ej.
      destruct (in_dec Nat.eq_dec y (firstn j f)) as [I|NI].
      - apply In_get in I as [m Em]. assert (Lm : m < j) by (apply get_lt in Em; rewrite firstn_length in Em; lia).
        apply (IH m Lm); [lia|]. unfold get in *. rewrite <- Em. rewrite <- (firstn_skipn j f) at 1. rewrite nth_error_app1; [reflexivity|].
        rewrite firstn_length. pose proof (get_lt _ _ _ Ej). unfold get in *. lia.
      - exists j. apply A2. split; [exact Hj|]. split; [exact Ej|]. intros m Hm Em. apply NI.
        rewrite <- (firstn_skipn j f) in Em. unfold get in Em. rewrite nth_error_app1 in Em; [eapply nth_error_In; exact Em|].
        rewrite firstn_length. pose proof (get_lt _ _ _ Ej). lia. }
    unfold map_insert. destruct (lookup val x) as [v|] eqn:El; cbn [fst].
    + split; [exact A1|]. intros y r. rewrite A2. split.
      * intros (B1 & B2 & B3). repeat split; auto.
      * intros (B1 & B2 & B3). split; [|auto]. destruct (Nat.eq_dec r i) as [->|]; [|lia]. exfalso.
        assert (y = x) as -> by congruence.
        assert (Ne : ~ (forall q, ~ In (x, q) val)) by (intros Q; apply LK in Q; congruence). apply Ne. intros q Iq. apply A2 in Iq as (C1 & C2 & C3).
        exact (B3 q C1 C2).
    + assert (NI : forall r, ~ In (x, r) val) by (apply LK; exact El). split.
      * cbn. constructor; [|exact A1]. intros I. apply in_map_iff in I as ([x' r] & Q & I). cbn in Q. subst x'. exact (NI r I).
      * intros y r. cbn [In]. rewrite A2. split.
        -- intros [Q|(B1 & B2 & B3)].
           ++ injection Q as <- <-. split; [lia|]. split; [exact Ex|]. intros j Hj Ej. destruct (First x) as [q Iq]; [exists j; auto|]. exact (NI q Iq).
           ++ split; [lia|auto].
        -- intros (B1 & B2 & B3). destruct (Nat.eq_dec r i) as [->|]; [left; congruence|right]. split; [lia|auto].
  - rewrite E. cbn [Nat.add] in A2.
    assert (Keys : forall x, In x (map fst val) <-> x < k).
    { intros x. rewrite <- H. split.
      - intros I. apply in_map_iff in I as ([x' r] & Q & I). cbn in Q. subst x'. apply A2 in I as (_ & G & _). eapply get_In. exact G.
      - intros I. apply In_get in I as [j Ej]. revert Ej. pattern j. apply (well_founded_induction Wf_nat.lt_wf). clear j. intros j IH Ej.
        destruct (in_dec Nat.eq_dec x (firstn j f)) as [I|NI].
        + apply In_get in I as [m Em]. assert (Lm : m < j) by (apply get_lt in Em; rewrite firstn_length in Em; lia).
          apply (IH m Lm). rewrite <- Em. rewrite <- (firstn_skipn j f) at 1. unfold get. rewrite nth_error_app1; [reflexivity|].
          apply get_lt in Em. exact Em.
        + apply in_map_iff. exists (x, j). split; [reflexivity|]. apply A2. pose proof (get_lt _ _ _ Ej). split; [lia|]. split; [exact Ej|].
          intros m Hm Em. apply NI. rewrite <- (firstn_skipn j f) in Em. unfold get in Em.
          rewrite nth_error_app1 in Em; [eapply nth_error_In; exact Em|]. rewrite firstn_length. lia. }
    assert (Lv : length val = k).
    { rewrite <- (map_length fst). apply Nat.le_antisymm.
      - rewrite <- (seq_length k 0). apply NoDup_incl_length; [exact A1|]. intros x I. apply Keys in I. apply in_seq. lia.
      - rewrite <- (seq_length k 0) at 1. apply NoDup_incl_length; [apply seq_NoDup|]. intros x I. apply in_seq in I. apply Keys. lia. }
    rewrite Lv.
    match goal with |- exists _, match for_each val ?body ?st with _ => _ end = _ /\ _ =>
      destruct (for_each_rule (fun pre rep => length rep = k /\ forall x r, In (x, r) pre -> get rep x = Some r) val body st) as (rep & E2 & B1 & B2) end.
    + split; [apply repeat_length|]. intros x r [].
    + intros pre [x r] post rep Ev (B1 & B2). cbn [fst snd].
      assert (Lx : x < length rep) by (rewrite B1; apply Keys; rewrite Ev, map_app; apply in_or_app; right; left; reflexivity).
      destruct (put_spec rep x r Lx) as (rep' & Ep & Lp & Gp). exists rep'. split; [exact Ep|]. split; [congruence|].
      intros y t I. rewrite Gp. apply in_app_or in I as [I|[Q|[]]]; [|injection Q as <- <-; rewrite Nat.eqb_refl; reflexivity].
      destruct (Nat.eqb_spec y x) as [->|]; [|apply B2; exact I]. exfalso. rewrite Ev, map_app in A1. cbn [map fst] in A1.
      apply NoDup_remove_2 in A1. apply A1. apply in_or_app. left. apply in_map_iff. exists (x, t). auto.
    + rewrite E2. eexists. split; [reflexivity|]. cbn [d_class d_classRep]. split; [reflexivity|]. split; [exact B1|].
      intros c r G. assert (Lc : c < k) by (rewrite <- B1; eapply get_lt; exact G). apply Keys, in_map_iff in Lc as ([c' r'] & Q & I). cbn in Q. subst c'.
      assert (r' = r) as -> by (specialize (B2 _ _ I); unfold get in *; congruence). apply A2 in I as (_ & C1 & C2). auto.
Qed.

(** ** Sizes *)

Lemma classSize_ok p c : classSize p c = count_occ Nat.eq_dec (d_class p) c.
Proof.
  unfold classSize. cut (forall l n, fold_left (fun n elt => if elt =? c then S n else n) l n = n + count_occ Nat.eq_dec l c).
  { intros C. rewrite C. reflexivity. }
  induction l as [|x l IH]; intros n; cbn [fold_left count_occ]; [lia|]. rewrite IH. destruct (Nat.eqb_spec x c), (Nat.eq_dec x c); lia.
Qed.
Lemma class_sizes_ok p : (forall x, In x (d_class p) -> x < classCount p) ->
  exists l, class_sizes p = Some l /\ length l = classCount p /\
    forall c, c < classCount p -> nth_error l c = Some (count_occ Nat.eq_dec (d_class p) c).
Proof.
  intros H. unfold class_sizes.
  match goal with |- exists _, for_each _ ?body ?st = _ /\ _ =>
    destruct (for_each_rule (fun pre r => length r = classCount p /\ forall c, c < classCount p -> get r c = Some (count_occ Nat.eq_dec pre c)) (d_class p) body st)
      as (l & E & A1 & A2) end.
  - split; [apply repeat_length|]. intros c Hc. rewrite get_repeat. destruct (Nat.ltb_spec c (classCount p)); [reflexivity|lia].
  - intros pre x post r Ed (A1 & A2). assert (Lx : x < classCount p) by (apply H; rewrite Ed; apply in_or_app; right; left; reflexivity).
    rewrite (A2 x Lx). destruct (put_spec r x (S (count_occ Nat.eq_dec pre x)) ltac:(lia)) as (r' & Ep & Lp & Gp). exists r'.
    split; [exact Ep|]. split; [congruence|]. intros c Hc. rewrite Gp, count_occ_app. cbn [count_occ].
    destruct (Nat.eqb_spec c x) as [->|N]; [destruct (Nat.eq_dec x x); [f_equal; lia|contradiction]|].
    destruct (Nat.eq_dec x c); [congruence|]. rewrite (A2 c Hc). f_equal. lia.
  - exists l. auto.
Qed.

(** ** The iterator *)

Section Iter.
Variables (cls : list nat) (k : nat).
Hypothesis Onto : forall c, In c cls <-> c < k.
Let key x := nth x cls 0.
Let less x y := key x <? key y.
Let bucket (l : list nat) c := filter (fun x => key x =? c) l.

Lemma insert_app x l1 l2 : (forall y, In y l1 -> less x y = false) -> insert_sorted less x (l1 ++ l2) = l1 ++ insert_sorted less x l2.
Proof.
  induction l1 as [|y l IH]; intros H; [reflexivity|]. cbn [app insert_sorted]. rewrite (H y (or_introl eq_refl)). rewrite IH; [reflexivity|].
  intros z I. apply H. right. exact I.
Qed.
Lemma insert_front x l : (forall y, In y l -> less x y = true) -> insert_sorted less x l = x :: l.
Proof. destruct l as [|y l]; intros H; [reflexivity|]. cbn [insert_sorted]. rewrite (H y (or_introl eq_refl)). reflexivity. Qed.
Lemma concat_ext (f g : nat -> list nat) a m : (forall c, a <= c < a + m -> f c = g c) -> concat (map f (seq a m)) = concat (map g (seq a m)).
Proof. intros H. f_equal. apply map_ext_in. intros c I. apply H. apply in_seq in I. exact I. Qed.
Lemma in_buckets l x a m : In x (concat (map (bucket l) (seq a m))) -> In x l /\ a <= key x < a + m.
Proof.
  intros I. apply in_concat in I as (b & I1 & I2). apply in_map_iff in I1 as (c & <- & I1). apply in_seq in I1.
  unfold bucket in I2. apply filter_In in I2 as [I2 E]. apply Nat.eqb_eq in E. subst c. auto.
Qed.
Lemma insert_buckets x l : key x < k ->
  insert_sorted less x (concat (map (bucket l) (seq 0 k))) = concat (map (bucket (l ++ [x])) (seq 0 k)).
Proof.
  intros H. assert (Split : forall L, concat (map (bucket L) (seq 0 k)) =
    (concat (map (bucket L) (seq 0 (key x))) ++ bucket L (key x)) ++ concat (map (bucket L) (seq (S (key x)) (k - S (key x))))).
  { intros L. replace k with (key x + (1 + (k - S (key x)))) at 1 by lia. rewrite !seq_app, !map_app, !concat_app. cbn [seq map concat Nat.add].
    rewrite app_nil_r, Nat.add_1_r, app_assoc. reflexivity. }
  rewrite !Split. rewrite insert_app.
  - rewrite insert_front.
    + assert (B : forall c, bucket (l ++ [x]) c = bucket l c ++ (if key x =? c then [x] else [])).
      { intros c. unfold bucket. rewrite filter_app. reflexivity. }
      rewrite (concat_ext (bucket (l ++ [x])) (bucket l) 0), (concat_ext (bucket (l ++ [x])) (bucket l) (S (key x))).
      * rewrite B, Nat.eqb_refl, <- !app_assoc. reflexivity.
      * intros c Hc. rewrite B. destruct (Nat.eqb_spec (key x) c); [lia|apply app_nil_r].
      * intros c Hc. rewrite B. destruct (Nat.eqb_spec (key x) c); [lia|apply app_nil_r].
    + intros y I. apply in_buckets in I as [_ I]. apply Nat.ltb_lt. lia.
  - intros y I. apply Nat.ltb_ge. apply in_app_or in I as [I|I].
    + apply in_buckets in I as [_ I]. lia.
    + unfold bucket in I. apply filter_In in I as [_ E]. apply Nat.eqb_eq in E. lia.
Qed.
Lemma sort_buckets l : (forall x, In x l -> key x < k) -> stable_sort less l = concat (map (bucket l) (seq 0 k)).
Proof.
  unfold stable_sort. intros H. cut (forall l2 l1, (forall x, In x l2 -> key x < k) ->
    fold_left (fun r x => insert_sorted less x r) l2 (concat (map (bucket l1) (seq 0 k))) = concat (map (bucket (l1 ++ l2)) (seq 0 k))).
  { intros C. specialize (C l [] H). cbn [app] in C. rewrite <- C. apply f_equal. clear.
    induction (seq 0 k) as [|c t IH]; [reflexivity|exact IH]. }
  clear l H. induction l2 as [|x l2 IH]; intros l1 H; cbn [fold_left]; [rewrite app_nil_r; reflexivity|].
  rewrite insert_buckets by (apply H; left; reflexivity). rewrite IH; [|intros y I; apply H; right; exact I]. rewrite <- app_assoc. reflexivity.
Qed.
End Iter.

Section Concat.
Context {A : Type}.
Implicit Type L : list (list A).
Definition off L c := length (concat (firstn c L)).
Lemma off_0 L : off L 0 = 0.
Proof. reflexivity. Qed.
Lemma firstn_next L c l : get L c = Some l -> firstn (S c) L = firstn c L ++ [l].
Proof.
  revert L. induction c as [|c IH]; intros [|h t] E; try discriminate; cbn in E.
  - injection E as ->. reflexivity.
  - cbn [firstn app]. rewrite <- (IH t E). reflexivity.
Qed.
Lemma skipn_next L c l : get L c = Some l -> skipn c L = l :: skipn (S c) L.
Proof.
  revert L. induction c as [|c IH]; intros [|h t] El; try discriminate; cbn in El; [injection El as ->; reflexivity|].
  cbn [skipn]. rewrite (IH t El). reflexivity.
Qed.
Lemma off_S L c l : get L c = Some l -> off L (S c) = off L c + length l.
Proof. intros E. unfold off. rewrite (firstn_next L c l E), concat_app, app_length. cbn. rewrite app_nil_r. reflexivity. Qed.
Lemma off_ge L c : length L <= c -> off L c = length (concat L).
Proof. intros H. unfold off. rewrite firstn_all2 by exact H. reflexivity. Qed.
Lemma skipn_off L c : skipn (off L c) (concat L) = concat (skipn c L).
Proof.
  unfold off. rewrite <- (firstn_skipn c L) at 2. rewrite concat_app, skipn_app, Nat.sub_diag, skipn_all2 by lia. reflexivity.
Qed.
Lemma concat_get L i x : get (concat L) i = Some x -> exists c l m, get L c = Some l /\ get l m = Some x /\ i = off L c + m.
Proof.
  revert i. induction L as [|h t IH]; intros i E; [destruct i; discriminate|]. cbn [concat] in E. rewrite get_app in E.
  destruct (Nat.ltb_spec i (length h)) as [H|H].
  - exists 0, h, i. auto.
  - destruct (IH _ E) as (c & l & m & E1 & E2 & E3). exists (S c), l, m. split; [exact E1|]. split; [exact E2|].
    unfold off in *. cbn [firstn concat]. rewrite app_length. lia.
Qed.
Lemma off_mono L c d : (forall l, In l L -> l <> []) -> c < d -> c < length L -> off L c < off L d.
Proof.
  intros NE H Hc. induction H as [|d H IH].
  - destruct (get_some L c Hc) as [l E]. rewrite (off_S L c l E). specialize (NE l (get_In _ _ _ E)). destruct l; [contradiction|cbn; lia].
  - destruct (Nat.lt_ge_cases d (length L)) as [Hd|Hd].
    + destruct (get_some L d Hd) as [l E]. rewrite (off_S L d l E). lia.
    + rewrite (off_ge L (S d)) by lia. rewrite (off_ge L d) in IH by lia. exact IH.
Qed.
End Concat.

Lemma iterate_ok p : (forall c, In c (d_class p) <-> c < classCount p) ->
  let L := map (fun c => filter (fun x => nth x (d_class p) 0 =? c) (seq 0 (length (d_class p)))) (seq 0 (classCount p)) in
  iterate p = Some (mk_it (concat L) (map (off L) (seq 0 (classCount p + 2))) 0 (off L 1) 1) /\
  length (concat L) = length (d_class p) /\ (forall l, In l L -> l <> []).
Proof.
  intros H. cbv zeta. set (cls := d_class p) in *. set (k := classCount p) in *. set (n := length cls).
  set (key := fun x => nth x cls 0).
  assert (SB := sort_buckets cls k (seq 0 n)). cbv zeta in SB. fold key in SB.
  set (L := map (fun c => filter (fun x => key x =? c) (seq 0 n)) (seq 0 k)).
  change (map (fun c => filter (fun x => nth x cls 0 =? c) (seq 0 n)) (seq 0 k)) with L.
  assert (LL : length L = k) by (unfold L; rewrite map_length, seq_length; reflexivity).
  assert (NE : forall l, In l L -> l <> []).
  { intros l I Z. unfold L in I. apply in_map_iff in I as (c & E & I). apply in_seq in I. assert (Ic : In c cls) by (apply H; lia).
    apply In_get in Ic as [x Ex]. assert (In x l) as Ix; [|rewrite Z in Ix; exact Ix]. rewrite <- E. apply filter_In.
    split; [apply in_seq; apply get_lt in Ex; unfold n; lia|]. apply Nat.eqb_eq. unfold key. unfold get in Ex. apply nth_error_nth. exact Ex. }
  assert (KL : forall x, x < n -> key x < k).
  { intros x Hx. apply H. unfold key. apply nth_In. exact Hx. }
  assert (SB' : stable_sort (fun x y => key x <? key y) (seq 0 n) = concat L).
  { apply SB. intros x I. apply KL. apply in_seq in I. lia. }
  assert (Lc : length (concat L) = n).
  { rewrite <- SB'. clear. unfold stable_sort. rewrite <- (seq_length n 0) at 2. cut (forall l r, length (fold_left (fun r x => insert_sorted (fun x y => key x <? key y) x r) l r) = length l + length r).
    { intros C. rewrite C. cbn. lia. }
    induction l as [|x l IH]; intros r; cbn [fold_left length]; [reflexivity|]. rewrite IH.
    assert (Q : length (insert_sorted (fun x y => key x <? key y) x r) = S (length r)).
    { clear. induction r as [|y r IH]; [reflexivity|]. cbn [insert_sorted]. destruct (key x <? key y); cbn [length]; [reflexivity|]. rewrite IH. reflexivity. }
    lia. }
  split; [|auto]. unfold iterate. fold cls. fold n.
  change (fun x y => nth x cls 0 <? nth y cls 0) with (fun x y => key x <? key y). rewrite SB'.
  destruct (Nat.eqb_spec n 0) as [Z|NZ].
  - assert (k = 0) as Zk. { destruct (Nat.eq_dec k 0) as [|Q]; [assumption|]. assert (I : In 0 cls) by (apply H; lia). apply In_get in I as [j Ej]. apply get_lt in Ej. unfold n in Z. lia. }
    assert (L = []) as -> by (unfold L; rewrite Zk; reflexivity). rewrite Zk. reflexivity.
  - assert (Key : forall i x, get (concat L) i = Some x -> class_of p x = Some (key x) /\ key x < k /\ off L (key x) <= i < off L (S (key x))).
    { intros i x Ex. destruct (concat_get L i x Ex) as (c & l & m & E1 & E2 & E3).
      assert (E1' := E1). unfold get, L in E1'. rewrite nth_error_map in E1'. destruct (nth_error (seq 0 k) c) as [c'|] eqn:Ec; [|discriminate]. cbn in E1'.
      injection E1' as El. fold (get (seq 0 k) c) in Ec. rewrite get_seq in Ec. destruct (Nat.ltb_spec c k) as [Hc|]; [|discriminate]. injection Ec as <-.
      assert (I : In x l) by (eapply get_In; exact E2). rewrite <- El in I. apply filter_In in I as [I1 I2]. apply in_seq in I1. apply Nat.eqb_eq in I2.
      cbn [Nat.add] in I2. rewrite I2. split; [|split; [exact Hc|]].
      - unfold class_of. rewrite (get_nth (d_class p) x 0) by (fold cls n; lia). fold cls. f_equal. exact I2.
      - rewrite (off_S L c l E1). apply get_lt in E2. lia. }
    assert (Oinv : forall c d, c <= k -> d <= k -> off L c < off L d -> c < d).
    { intros c d Hc Hd Q. destruct (Nat.lt_ge_cases c d) as [|G]; [assumption|]. destruct (Nat.eq_dec c d) as [->|]; [lia|].
      assert (off L d < off L c) by (apply off_mono; [exact NE|lia|lia]). lia. }
    destruct (get_some (concat L) 0 ltac:(lia)) as [x0 E0]. rewrite E0. destruct (Key 0 x0 E0) as (K1 & K2 & K3). rewrite K1.
    assert (Z0 : key x0 = 0). { destruct (Nat.eq_dec (key x0) 0) as [|Q]; [assumption|]. pose proof (off_mono L 0 (key x0) NE ltac:(lia) ltac:(lia)). lia. }
    match goal with |- match for_up n 0 ?body ?st with _ => _ end = _ =>
      destruct (for_up_rule (fun i '(stop, this) => this < k /\ stop = map (off L) (seq 0 (S this)) /\ off L this <= i <= off L (S this) /\ (i = 0 \/ off L this < i)) n 0 body st)
       as ([stop this] & E & A1 & A2 & A3 & A4) end.
    + rewrite Z0. split; [lia|]. split; [reflexivity|]. rewrite off_0. split; [lia|auto].
    + intros i [stop this] Hi (A1 & A2 & A3 & A4). destruct (get_some (concat L) i ltac:(lia)) as [x Ex]. rewrite Ex.
      destruct (Key i x Ex) as (B1 & B2 & B3). rewrite B1. eexists. split; [reflexivity|].
      destruct (Nat.eqb_spec (key x) this) as [Q|Q]; cbn [negb].
      * rewrite Q in B3. split; [exact A1|]. split; [exact A2|]. split; lia.
      * assert (Q1 : this < S (key x)) by (apply Oinv; lia).
        assert (Q2 : ~ S this < key x).
        { intros Q2. pose proof (off_mono L (S this) (key x) NE Q2 ltac:(lia)). lia. }
        assert (Q3 : key x = S this) by lia. rewrite Q3 in *. split; [exact B2|]. split; [|lia].
        replace (S (S this)) with (S this + 1) by lia. rewrite seq_app, map_app, <- A2. cbn [seq map Nat.add]. f_equal. f_equal. lia.
    + rewrite E. cbn [Nat.add] in A3, A4.
      assert (Sk : S this = k).
      { destruct (Nat.eq_dec (S this) k) as [|Q]; [assumption|]. pose proof (off_mono L (S this) k NE ltac:(lia) ltac:(lia)). rewrite (off_ge L k) in H0 by lia. lia. }
      unfold rewind. rewrite A2, Sk. replace (map (off L) (seq 0 k) ++ [n; n]) with (map (off L) (seq 0 (k + 2))).
      * assert (G : forall j, j < k + 2 -> get (map (off L) (seq 0 (k + 2))) j = Some (off L j)).
        { intros j Hj. unfold get. rewrite nth_error_map. fold (get (seq 0 (k + 2)) j). rewrite get_seq. destruct (Nat.ltb_spec j (k + 2)); [reflexivity|lia]. }
        rewrite (G 0) by lia. rewrite (G 1) by lia. reflexivity.
      * rewrite seq_app, map_app. f_equal. cbn [seq map Nat.add]. rewrite !off_ge by lia. rewrite Lc. reflexivity.
Qed.

Lemma all_classes_ok p : (forall c, In c (d_class p) <-> c < classCount p) ->
  all_classes p = Some (map (fun c => filter (fun x => nth x (d_class p) 0 =? c) (seq 0 (length (d_class p)))) (seq 0 (classCount p))).
Proof.
  intros H. destruct (iterate_ok p H) as (E & Lc & NE). unfold all_classes. rewrite E.
  set (L := map _ _) in *. set (k := classCount p) in *. set (n := length (d_class p)) in *.
  assert (LL : length L = k) by (unfold L; rewrite map_length, seq_length; reflexivity).
  set (at_class := fun c => (mk_it (concat L) (map (off L) (seq 0 (k + 2))) (off L c) (off L (S c)) (S c), firstn c L)).
  assert (kn : k <= n).
  { rewrite <- Lc, <- LL. clear -NE. induction L as [|l L IH]; [cbn; lia|]. cbn [concat length]. rewrite app_length.
    assert (l <> []) by (apply NE; left; reflexivity). assert (length L <= length (concat L)) by (apply IH; intros; apply NE; right; assumption).
    destruct l; [contradiction|cbn; lia]. }
  match goal with |- match while ?fu ?co ?bo ?st with _ => _ end = _ =>
    destruct (while_rule (fun s => exists c, c <= k /\ s = at_class c) (fun s => k - length (snd s)) (fun s => length (snd s) <? k) fu co bo st)
      as (s & Es & (c & Hc & ->) & Z) end.
  - exists 0. split; [lia|reflexivity].
  - cbn. lia.
  - intros s (c & Hc & ->). unfold at_class, it_valid. cbn [snd first d_data]. rewrite firstn_length, LL, Lc, Nat.min_l by exact Hc. f_equal.
    destruct (Nat.ltb_spec c k) as [Q|Q].
    + pose proof (off_mono L c k NE Q ltac:(lia)) as M. rewrite (off_ge L k) in M by lia. destruct (Nat.eqb_spec (off L c) n); [lia|reflexivity].
    + rewrite off_ge by lia. rewrite Lc, Nat.eqb_refl. reflexivity.
  - intros s (c & Hc & ->) Q. unfold at_class in Q. cbn [snd] in Q. rewrite firstn_length, LL, Nat.min_l in Q by exact Hc. apply Nat.ltb_lt in Q.
    destruct (get_some L c ltac:(lia)) as [l El].
    exists (at_class (S c)). split; [|split; [exists (S c); split; [lia|reflexivity]|]].
    + unfold at_class, it_next, it_class. cbn [d_data d_stop first second currentEnd].
      replace (get (map (off L) (seq 0 (k + 2))) (S (S c))) with (Some (off L (S (S c)))).
      * f_equal. f_equal. rewrite (firstn_next L c l El). f_equal. f_equal. rewrite skipn_off, (off_S L c l El).
        replace (off L c + length l - off L c) with (length l) by lia.
        rewrite (skipn_next L c l El). cbn [concat]. rewrite firstn_app, Nat.sub_diag, firstn_all. cbn [firstn]. apply app_nil_r.
      * unfold get. rewrite nth_error_map. fold (get (seq 0 (k + 2)) (S (S c))). rewrite get_seq. destruct (Nat.ltb_spec (S (S c)) (k + 2)); [reflexivity|lia].
    + unfold at_class. cbn [snd]. rewrite !firstn_length, LL. lia.
  - rewrite Es. unfold at_class in *. cbn [snd] in Z. rewrite firstn_length, LL, Nat.min_l in Z by exact Hc. apply Nat.ltb_ge in Z.
    f_equal. apply firstn_all2. lia.
Qed.
