From Coq Require Import List Arith Bool Lia Relations Sorted ZArith.
From Verif Require Import VecModel VecProofs PermProofs SetModel SetProofs PosetModel PosetSpec PosetProofs.
Import ListNotations.
Open Scope nat_scope.
Open Scope vec_scope.

Section Ops.
Variable p : poset.
Hypothesis ok : poset_ok p.
Let Sz : sized p := proj1 ok.

Lemma above_ok x : x < length p -> exists r, above p x = Some r /\ length r = length p /\
  forall y, bs_mem r y = true <-> strictly p x y.
Proof.
  intros Hx. unfold above.
  match goal with |- exists r, for_up ?k ?f ?body ?st = _ /\ _ => destruct (for_up_rule (fun s r => length r = length p /\
    forall y, bs_mem r y = true <-> y < s /\ strictly p x y) k f body st) as (r & E & L & M) end.
  - split; [apply new_len|]. intros y. rewrite mem_new. split; [discriminate|]. intros [A B]. apply (strictly_lt p _ _ Sz) in B. lia.
  - intros s r Hs (L & M). destruct (get_some p s) as [b E]; [lia|]. rewrite E. destruct (bs_mem b x) eqn:Em.
    + destruct (insert_ok r s) as (c & E' & L' & M'); [lia|]. exists c. split; [exact E'|]. split; [lia|]. intros y.
      rewrite M', orb_true_iff, Nat.eqb_eq, M. split.
      * intros [->|[A B]]; [|split; [lia|exact B]]. split; [lia|]. apply (strictly_mem p x s b E). exact Em.
      * intros [A B]. destruct (Nat.eq_dec y s); [auto|right; split; [lia|exact B]].
    + exists r. split; [reflexivity|]. split; [exact L|]. intros y. rewrite M. split.
      * intros [A B]. split; [lia|exact B].
      * intros [A B]. split; [|exact B]. destruct (Nat.eq_dec y s) as [->|]; [|lia]. apply (strictly_mem p x s b E) in B. congruence.
  - exists r. split; [exact E|]. split; [exact L|]. intros y. rewrite M. split; [tauto|]. intros B. split; [|exact B].
    apply (strictly_lt p _ _ Sz) in B. lia.
Qed.

Lemma maxima_loop_ok (b : bset) fuel : forall r x, x <= fuel -> length r = length b -> x <= length b ->
  (forall y, bs_mem b y = true -> y < length p) ->
  (forall y, bs_mem r y = true <-> bs_mem b y = true /\ forall z, x <= z -> bs_mem b z = true -> ~ strictly p y z) ->
  exists r', maxima_loop p fuel r x = Some r' /\ length r' = length b /\ forall y, bs_mem r' y = true <-> maximal_in p b y.
Proof.
  induction fuel as [|k IH]; intros r x Hf L Hx Hb M; cbn [maxima_loop]; assert (B := back_ok r x); destruct (bs_back r x) as [y|].
  - lia.
  - exists r. split; [reflexivity|]. split; [exact L|]. intros y. rewrite M. replace x with 0 by lia. unfold maximal_in, bs_mem.
    split; intros [P Q]; (split; [exact P|]); intros z; [intros; apply Q; [lia|auto]|intros _; apply Q].
  - destruct B as (Hy & My & My').
    assert (Hbx : forall z, y < z < x -> bs_mem b z = true -> exists w, x <= w /\ bs_mem b w = true /\ strictly p z w).
    { intros z Hz Bz. specialize (My' z Hz).
      assert (K : forall n, n <= length b -> ~ (forall w, x <= w < n -> bs_mem b w = true -> ~ strictly p z w) ->
         exists w, x <= w < n /\ bs_mem b w = true /\ strictly p z w).
      { induction n as [|n IHn]; intros Hn N; [exfalso; apply N; intros; lia|].
        destruct (bs_mem b n) eqn:Bn.
        - destruct (get_some p n) as [row Er]; [apply Hb; exact Bn|].
          destruct (bs_mem row z) eqn:Rz.
          + destruct (Nat.lt_ge_cases n x).
            * exfalso. apply N. intros; lia.
            * exists n. split; [lia|]. split; [exact Bn|]. apply (strictly_mem p z n row Er). exact Rz.
          + destruct IHn as (w & W1 & W2); [lia| |exists w; split; [lia|exact W2]].
            intros A. apply N. intros w Hw Bw S. destruct (Nat.eq_dec w n) as [->|]; [|apply (A w); auto; lia].
            apply (strictly_mem p z n row Er) in S. congruence.
        - destruct IHn as (w & W1 & W2); [lia| |exists w; split; [lia|exact W2]].
          intros A. apply N. intros w Hw Bw S. destruct (Nat.eq_dec w n) as [->|]; [congruence|]. apply (A w); auto. lia. }
      destruct (K (length b)) as (w & W1 & W2 & W3); [lia| |exists w; split; [lia|auto]].
      intros A. assert (bs_mem r z = true); [|congruence]. apply M. split; [exact Bz|]. intros w Hw Bw. apply A; [|exact Bw].
      apply mem_lt in Bw. lia. }
    assert (By : bs_mem b y = true) by (apply M; exact My).
    destruct (get_some p y) as [row Er]; [apply Hb; exact By|]. rewrite Er.
    destruct (andnot_ok r row) as (r2 & E2 & L2 & M2).
    { rewrite (Sz _ _ Er). apply mem_lt in By. lia. }
    rewrite E2. apply IH; [lia|lia|lia|exact Hb|]. intros w. rewrite M2, andb_true_iff, negb_true_iff, M. split.
    + intros ((P & Q) & R). split; [exact P|]. intros z Hz Bz S.
      destruct (Nat.lt_ge_cases z x) as [Z1|Z1]; [|exact (Q z Z1 Bz S)].
      destruct (Nat.eq_dec z y) as [->|Nz].
      * apply (strictly_mem p w y row Er) in S. congruence.
      * destruct (Hbx z ltac:(lia) Bz) as (v & V1 & V2 & V3). apply (Q v V1 V2). exact (proj2 ok _ _ _ S V3).
    + intros (P & Q). split; [split; [exact P|]|].
      * intros z Hz Bz. apply Q; [lia|exact Bz].
      * destruct (bs_mem row w) eqn:R; [|reflexivity]. exfalso. apply (Q y (le_n _) By). apply (strictly_mem p w y row Er). exact R.
  - exists r. split; [reflexivity|]. split; [exact L|]. intros y. rewrite M. unfold maximal_in, bs_mem. split.
    + intros [P Q]. split; [exact P|]. intros z Bz. destruct (Nat.lt_ge_cases z x) as [Z1|Z1]; [|apply Q; auto].
      intros S. assert (Hzx := B z Z1). assert (Hyz := strictly_lt p _ _ Sz S).
      assert (bs_mem r y = false) by (apply B; lia). assert (bs_mem r y = true) by (apply M; split; auto). congruence.
    + intros [P Q]. split; [exact P|]. intros z _. apply Q.
Qed.
Lemma maxima_ok (b : bset) : (forall y, bs_mem b y = true -> y < length p) ->
  exists r, maxima p b = Some r /\ length r = length b /\ forall y, bs_mem r y = true <-> maximal_in p b y.
Proof.
  intros Hb. apply maxima_loop_ok; auto. intros y. split; [|tauto]. intros H. split; [exact H|]. intros z Hz Bz. apply mem_lt in Bz. lia.
Qed.
Lemma minima_ok (b : bset) : (forall y, bs_mem b y = true -> y < length p) ->
  exists r, minima p b = Some r /\ length r = length p /\ forall y, bs_mem r y = true <-> minimal_in p b y.
Proof.
  intros Hb. unfold minima.
  match goal with |- exists r, for_each ?l ?body ?st = _ /\ _ => destruct (for_each_rule (fun pre r => length r = length p /\
    forall y, bs_mem r y = true <-> In y pre /\ minimal_in p b y) l body st) as (r & E & L & M) end.
  - split; [apply new_len|]. intros y. rewrite mem_new. split; [discriminate|intros [[] _]].
  - intros pre x suf r El (L & M). assert (Bx : bs_mem b x = true).
    { apply elems_In. rewrite El. apply in_or_app. right. left. reflexivity. }
    destruct (get_some p x) as [d Ed]; [apply Hb; exact Bx|]. rewrite Ed.
    assert (D : bs_disjoint d b = true <-> minimal_in p b x).
    { rewrite disjoint_ok. unfold minimal_in. split.
      - intros A. split; [exact Bx|]. intros z Bz S. apply (strictly_mem p z x d Ed) in S. specialize (A z). unfold bs_mem in *.
        rewrite S, Bz in A. discriminate.
      - intros [_ A] z. destruct (bs_mem d z) eqn:Dz; [|reflexivity]. destruct (bs_mem b z) eqn:Bz; [|reflexivity].
        exfalso. apply (A z Bz). apply (strictly_mem p z x d Ed). exact Dz. }
    destruct (bs_disjoint d b).
    + destruct (insert_ok r x) as (c & E & L' & M'); [rewrite L; apply Hb; exact Bx|]. exists c. split; [exact E|]. split; [lia|].
      intros y. rewrite M', orb_true_iff, Nat.eqb_eq, M, in_app_iff. cbn [In]. split.
      * intros [->|[A B]]; [split; [auto|apply D; reflexivity]|auto].
      * intros [[A|[<-|[]]] B]; auto.
    + exists r. split; [reflexivity|]. split; [exact L|]. intros y. rewrite M, in_app_iff. cbn [In]. split; [tauto|].
      intros [[A|[<-|[]]] B]; [auto|]. apply D in B. discriminate.
  - exists r. split; [exact E|]. split; [exact L|]. intros y. rewrite M, elems_In. unfold minimal_in, bs_mem. tauto.
Qed.

Lemma covered_by_ok y : y < length p -> exists r, covered_by p y = Some r /\ length r = y /\
  forall x, bs_mem r x = true <-> covers p x y.
Proof.
  intros Hy. unfold covered_by, below. destruct (get_some p y Hy) as [b E]. rewrite E.
  destruct (maxima_ok b) as (r & Er & L & M).
  - intros x Hx. apply (strictly_mem p x y b E), (strictly_lt p _ _ Sz) in Hx. lia.
  - exists r. split; [exact Er|]. split; [rewrite L; apply (Sz _ _ E)|]. intros x. rewrite M. unfold maximal_in, covers.
    change (nth x b false) with (bs_mem b x). rewrite <- (strictly_mem p x y b E). split.
    + intros [A B]. split; [exact A|]. intros (z & Z1 & Z2). apply (B z); [|exact Z1]. apply (strictly_mem p z y b E). exact Z2.
    + intros [A B]. split; [exact A|]. intros z Bz S. apply B. exists z. split; [exact S|]. apply (strictly_mem p z y b E). exact Bz.
Qed.
Lemma covers_of_ok x : x < length p -> exists r, covers_of p x = Some r /\ length r = length p /\
  forall y, bs_mem r y = true <-> covers p x y.
Proof.
  intros Hx. unfold covers_of. destruct (above_ok x Hx) as (b & E & Lb & Mb). rewrite E.
  destruct (minima_ok b) as (r & Er & L & M).
  - intros y Hy. apply Mb, (strictly_lt p _ _ Sz) in Hy. lia.
  - exists r. split; [exact Er|]. split; [exact L|]. intros y. rewrite M. unfold minimal_in, covers.
    change (nth y b false) with (bs_mem b y). rewrite Mb. split.
    + intros [A B]. split; [exact A|]. intros (z & Z1 & Z2). apply (B z); [|exact Z2]. apply Mb. exact Z1.
    + intros [A B]. split; [exact A|]. intros z Bz S. apply B. exists z. split; [|exact S]. apply Mb. exact Bz.
Qed.

Lemma elems_increasing (b : bset) : StronglySorted lt (bs_elems b).
Proof.
  unfold bs_elems. generalize 0 as a. induction (length b) as [|n IH]; intros a; cbn [seq filter]; [constructor|].
  destruct (bs_mem b a); [|apply IH]. constructor; [apply IH|]. apply Forall_forall. intros x Hx. apply filter_In in Hx. destruct Hx as [Hx _].
  apply in_seq in Hx. lia.
Qed.

Lemma hasse_ok : exists h, hasseDiagram p = Some h /\ length h = length p /\
  (forall x y, link h x y <-> covers p x y) /\ forall l, In l h -> StronglySorted lt l.
Proof.
  unfold hasseDiagram. set (n := length p).
  match goal with |- exists h, for_up ?k 0 ?body ?st = _ /\ _ => destruct (for_up_rule (fun i h => length h = n /\
    (forall j l, j < i -> get h j = Some l -> StronglySorted lt l /\ forall x, In x l <-> covers p x j)) k 0 body st) as (h & E & L & R) end.
  - split; [apply repeat_length|]. intros; lia.
  - intros i h Hi (L & R). destruct (covered_by_ok i) as (r & E & Lr & Mr); [fold n; lia|]. rewrite E.
    destruct (put_spec h i (bs_elems r)) as (h' & E' & L' & G); [lia|]. exists h'. split; [exact E'|]. split; [lia|].
    intros j l Hj. rewrite G. destruct (Nat.eqb_spec j i) as [->|].
    + intros Q. injection Q as <-. split; [apply elems_increasing|]. intros x. rewrite elems_In. apply Mr.
    + apply R. lia.
  - exists h. split; [exact E|]. split; [exact L|]. split.
    + intros x y. split.
      * intros (l & El & I). apply (R y l); [apply get_lt in El; lia|exact El|exact I].
      * intros C. destruct (get_some h y) as [l El]; [destruct C as [C _]; apply (strictly_lt p _ _ Sz) in C; fold n in C; lia|].
        exists l. split; [exact El|]. apply (R y l); [apply get_lt in El; lia|exact El|exact C].
    + intros l I. destruct (In_get _ _ I) as [j El]. apply (R j l); [apply get_lt in El; lia|exact El].
Qed.
Lemma hasse_to_ok m : m < length p -> exists h, hasseDiagram_to p m = Some h /\ length h = S m /\
  (forall x y, link h x y <-> covers p x y /\ (y = m \/ strictly p y m)) /\ forall l, In l h -> StronglySorted lt l.
Proof.
  intros Hm. unfold hasseDiagram_to. destruct (get_some p m Hm) as [b Eb]. rewrite Eb.
  destruct (or_ok (bs_new (S m)) b) as (cl & Ecl & Lcl & Mcl); [rewrite new_len, (Sz _ _ Eb); lia|]. rewrite Ecl. rewrite new_len in Lcl.
  destruct (insert_ok cl m) as (c2 & E2 & L2 & M2); [lia|]. rewrite E2.
  assert (M : forall y, bs_mem c2 y = true <-> y = m \/ strictly p y m).
  { intros y. rewrite M2, Mcl, mem_new, orb_true_iff, Nat.eqb_eq. cbn. rewrite (strictly_mem p y m b Eb). tauto. }
  match goal with |- exists h, for_each ?ll ?body ?st = _ /\ _ => destruct (for_each_rule (fun pre h => length h = S m /\
    (forall j l, get h j = Some l -> StronglySorted lt l /\ forall x, In x l <-> In j pre /\ covers p x j)) ll body st) as (h & E & L & R) end.
  - split; [apply repeat_length|]. intros j l. rewrite get_repeat. destruct (j <? S m); [|discriminate].
    intros Q. injection Q as <-. split; [constructor|]. cbn. tauto.
  - intros pre i suf h El (L & R).
    assert (Bi : bs_mem c2 i = true) by (apply elems_In; rewrite El; apply in_or_app; right; left; reflexivity).
    assert (Hi : i <= m) by (apply M in Bi; destruct Bi as [->|Bi]; [lia|apply (strictly_lt p _ _ Sz) in Bi; lia]).
    destruct (covered_by_ok i) as (r & E & Lr & Mr); [lia|]. rewrite E.
    destruct (put_spec h i (bs_elems r)) as (h' & E' & L' & G); [lia|]. exists h'. split; [exact E'|]. split; [lia|].
    intros j l. rewrite G. destruct (Nat.eqb_spec j i) as [->|N].
    + intros Q. injection Q as <-. split; [apply elems_increasing|]. intros x. rewrite elems_In, Mr, in_app_iff. cbn [In]. tauto.
    + intros Ej. destruct (R j l Ej) as [A B]. split; [exact A|]. intros x. rewrite B, in_app_iff. cbn [In]. intuition congruence.
  - exists h. split; [exact E|]. split; [exact L|]. split.
    + intros x y. rewrite <- M, <- elems_In. split.
      * intros (l & El & I). apply (R y l El) in I. tauto.
      * intros [C I]. destruct (get_some h y) as [l El]; [apply elems_In, mem_lt in I; lia|].
        exists l. split; [exact El|]. apply (R y l El). auto.
    + intros l I. destruct (In_get _ _ I) as [j El]. apply (R j l El).
Qed.

(** *** counting *)
Definition total (n : nat) : nat := list_sum (map (@bs_size) (firstn n p)).
Lemma total_S n b : get p n = Some b -> total (S n) = total n + bs_size b.
Proof.
  intros E. unfold total. clear -E. revert n E. induction p as [|h t IH]; intros [|n] E; try discriminate.
  - injection E as ->. cbn. lia.
  - change (firstn (S (S n)) (h :: t)) with (h :: firstn (S n) t). change (firstn (S n) (h :: t)) with (h :: firstn n t).
    cbn [map]. change (list_sum (?a :: ?l)) with (a + list_sum l). rewrite (IH n E). lia.
Qed.
Lemma n_comparable_total : n_comparable p = Some (length p + total (length p)).
Proof.
  unfold n_comparable.
  match goal with |- for_up ?k 0 ?body ?st = _ => destruct (for_up_rule (fun i c => c = length p + total i) k 0 body st) as (c & E & R) end.
  - unfold total. cbn. lia.
  - intros i c Hi ->. destruct (get_some p i) as [b E]; [lia|]. rewrite E. eexists. split; [reflexivity|]. rewrite (total_S i b E). lia.
  - rewrite E, R. reflexivity.
Qed.

Lemma filter_list_prod (f : nat * nat -> bool) l m :
  length (filter f (list_prod l m)) = list_sum (map (fun x => length (filter (fun y => f (x, y)) m)) l).
Proof.
  induction l as [|x l IH]; [reflexivity|]. cbn [list_prod map]. rewrite filter_app, app_length, IH.
  change (list_sum (?a :: ?r)) with (a + list_sum r). f_equal. clear IH.
  induction m as [|y m IHm]; [reflexivity|]. cbn [map filter]. destruct (f (x, y)); cbn [length]; rewrite IHm; reflexivity.
Qed.
Lemma filter_all_false {A} (f : A -> bool) l : (forall x, In x l -> f x = false) -> filter f l = [].
Proof. induction l as [|x l IH]; intros H; [reflexivity|]. cbn. rewrite H by (left; auto). apply IH. intros; apply H; right; auto. Qed.
Lemma row_count j b : get p j = Some b ->
  length (filter (fun i => match lesseq p i j with Some r => r | None => false end) (seq 0 (length p))) = S (bs_size b).
Proof.
  intros E. assert (Hj := get_lt _ _ _ E). replace (length p) with (j + S (length p - S j)) by lia.
  rewrite seq_app, filter_app, app_length. cbn [seq plus filter]. unfold lesseq at 2. rewrite Nat.ltb_irrefl, Nat.eqb_refl. cbn [length].
  rewrite (filter_all_false _ (seq (S j) _)).
  - cbn [length]. rewrite size_elems. unfold bs_elems. rewrite (Sz _ _ E). rewrite Nat.add_1_r. do 2 f_equal.
    apply filter_ext_in. intros i Hi. apply in_seq in Hi. unfold lesseq. destruct (Nat.ltb_spec i j); [|lia]. rewrite E. reflexivity.
  - intros i Hi. apply in_seq in Hi. unfold lesseq. destruct (Nat.ltb_spec i j); [lia|]. apply Nat.eqb_neq. lia.
Qed.
Lemma n_comparable_ok : n_comparable p = Some (n_pairs (lesseq p) (length p)).
Proof.
  rewrite n_comparable_total. f_equal. unfold n_pairs. rewrite filter_list_prod.
  rewrite (map_ext_in _ (fun j => S (bs_size (nth j p [])))).
  2:{ intros j Hj. apply in_seq in Hj. apply row_count. apply get_nth. lia. }
  assert (G : forall n, n <= length p -> n + total n = list_sum (map (fun j => S (bs_size (nth j p []))) (seq 0 n))).
  { induction n as [|n IH]; intros Hn; [reflexivity|]. rewrite seq_S, map_app, list_sum_app, <- IH by lia. cbn [plus map list_sum fold_right].
    rewrite (total_S n (nth n p [])) by (apply get_nth; lia). lia. }
  apply G. lia.
Qed.
End Ops.

Lemma last_step (B : nat -> nat -> Prop) i j : clos_trans nat B i j -> exists k, B k j /\ (i = k \/ clos_trans nat B i k).
Proof.
  intros H. apply clos_trans_tn1 in H. inversion H as [H1|y z H1 H2]; subst.
  - exists i. auto.
  - exists y. split; [exact H1|]. right. apply clos_tn1_trans. exact H2.
Qed.
Lemma fold_min_le l : forall m, fold_left (fun m e => if e <? m then e else m) l m <= m /\
  forall x, In x l -> fold_left (fun m e => if e <? m then e else m) l m <= x.
Proof.
  induction l as [|e l IH]; intros m; cbn [fold_left]; [split; [lia|intros x []]|].
  destruct (IH (if e <? m then e else m)) as [A B]. destruct (Nat.ltb_spec e m).
  - split; [lia|]. intros x [<-|I]; [lia|auto].
  - split; [lia|]. intros x [<-|I]; [lia|auto].
Qed.

Lemma n_comparable_from_Hasse_ok h p : downward h -> from_hasse h = Some p -> n_comparable_from_Hasse h = n_comparable p.
Proof.
  intros D Ep. destruct (from_hasse_ok h D) as (p' & E' & L & Sz & G). rewrite Ep in E'. injection E' as <-.
  assert (ok : poset_ok p) by (eapply gen_poset; eauto). rewrite (n_comparable_total p).
  unfold n_comparable_from_Hasse. set (n := length h). 
  destruct (put_spec (repeat 0 (S n)) n n) as (ma0 & E0 & L0 & G0); [rewrite repeat_length; lia|]. rewrite E0. rewrite repeat_length in L0.
  match goal with |- match for_down n ?body ?st with _ => _ end = _ => destruct (for_down_rule (fun i ma => length ma = S n /\
    get ma n = Some n /\
    (forall j m m', i <= j < n -> get ma j = Some m -> get ma (S j) = Some m' -> m <= m' /\ forall x, link h x j -> m <= x)) n body st)
    as (ma & E1 & L1 & Q0 & Q1) end.
  - split; [exact L0|]. split; [rewrite G0, Nat.eqb_refl; reflexivity|]. intros; lia.
  - intros i ma Hi (L1 & Q0 & Q1). destruct (get_some ma (S i)) as [m Em]; [lia|]. rewrite Em.
    destruct (get_some h i) as [l El]; [fold n; lia|]. rewrite El.
    destruct (put_spec ma i (fold_left (fun m e => if e <? m then e else m) l m)) as (ma' & E & L' & G'); [lia|]. exists ma'.
    split; [exact E|]. split; [lia|]. split; [rewrite G'; destruct (Nat.eqb_spec n i); [lia|auto]|].
    intros j a a' Hj. rewrite !G'. destruct (Nat.eqb_spec j i) as [->|N].
    + destruct (Nat.eqb_spec (S i) i); [lia|]. intros A B. injection A as <-. rewrite Em in B. injection B as <-.
      destruct (fold_min_le l m) as [F1 F2]. split; [exact F1|]. intros x (l' & El' & I). unfold get in El. rewrite El in El'. injection El' as <-. auto.
    + destruct (Nat.eqb_spec (S j) i); [lia|]. apply Q1. lia.
  - rewrite E1.
    assert (Mono : forall j i m m', i <= j -> j <= n -> get ma i = Some m -> get ma j = Some m' -> m <= m').
    { induction j as [|j IH]; intros i m m' Hij Hj Ei Ej.
      - replace i with 0 in Ei by lia. assert (m = m') by congruence. lia.
      - destruct (Nat.eq_dec i (S j)) as [->|]; [assert (m = m') by congruence; lia|].
        destruct (get_some ma j) as [a Ea]; [lia|]. destruct (Q1 j a m' ltac:(lia) Ea Ej) as [A _].
        specialize (IH i m a ltac:(lia) ltac:(lia) Ei Ea). lia. }
    match goal with |- match for_up n 0 ?body ?st with _ => _ end = _ => destruct (for_up_rule (fun i '(cl, c) => length cl = n /\
       c = i + total p i /\ forall m j b, get ma i = Some m -> m <= j < i -> get p j = Some b -> get cl j = Some (b ++ [true])) n 0 body st)
       as ([cl c] & E2 & L2 & C2 & R2) end.
    + split; [apply repeat_length|]. split; [reflexivity|]. intros; lia.
    + intros i [cl c] Hi (L2 & C2 & R2).
      destruct (insert_ok (bs_new (S i)) i) as (c1 & Ec1 & Lc1 & Mc1); [rewrite new_len; lia|]. rewrite Ec1. rewrite new_len in Lc1.
      destruct (get_some h i) as [l El]; [fold n; lia|]. rewrite El.
      destruct (get_some p i) as [b Eb]; [lia|].
      destruct (get_some ma i) as [m Em]; [lia|]. destruct (get_some ma (S i)) as [m' Em']; [lia|].
      destruct (Q1 i m m' ltac:(lia) Em Em') as [Q2 Q3].
      match goal with |- exists s', (match for_each l ?body ?st with _ => _ end) = _ /\ _ =>
        destruct (for_each_rule (fun pre r => length r = S i /\ forall a, bs_mem r a = true <-> a = i \/ exists x, In x pre /\ (a = x \/ strictly p a x))
          l body st) as (c2 & Ec2 & Lc2 & Mc2) end.
      * split; [exact Lc1|]. intros a. rewrite Mc1, mem_new, orb_false_r, Nat.eqb_eq. split; [auto|]. intros [|(x & [] & _)]. auto.
      * intros pre x suf r Epre (Lr & Mr). assert (Lk : link h x i) by (exists l; split; [exact El|rewrite Epre; apply in_or_app; right; left; auto]).
        assert (Hx := D _ _ Lk). destruct (get_some p x) as [bx Ex]; [lia|].
        rewrite (R2 m x bx Em ltac:(specialize (Q3 _ Lk); lia) Ex).
        destruct (or_ok r (bx ++ [true])) as (r' & Er' & Lr' & Mr'); [rewrite app_length, (Sz _ _ Ex); cbn; lia|].
        exists r'. split; [exact Er'|]. split; [lia|]. intros a. rewrite Mr', orb_true_iff, Mr.
        assert (Ma : bs_mem (bx ++ [true]) a = true <-> a = x \/ strictly p a x).
        { rewrite (strictly_mem p a x bx Ex). unfold bs_mem. assert (Lx := Sz _ _ Ex).
          destruct (Nat.lt_ge_cases a x) as [A|A].
          - rewrite app_nth1 by lia. split; [auto|]. intros [->|]; [lia|auto].
          - rewrite app_nth2 by lia. rewrite Lx. destruct (Nat.eq_dec a x) as [->|].
            + rewrite Nat.sub_diag. cbn. tauto.
            + destruct (a - x) as [|k] eqn:Ek; [lia|]. replace (nth (S k) [true] false) with false by (destruct k; reflexivity).
              split; [discriminate|]. intros [|H]; [lia|]. change (bs_mem bx a = true) in H. apply mem_lt in H. lia. }
        rewrite Ma. split.
        -- intros [[->|(y & Y1 & Y2)]|H]; [auto| |].
           ++ right. exists y. split; [apply in_or_app; auto|exact Y2].
           ++ right. exists x. split; [apply in_or_app; right; left; auto|exact H].
        -- intros [->|(y & Y1 & Y2)]; [auto|]. apply in_app_iff in Y1. destruct Y1 as [Y1|[<-|[]]]; [left; right; exists y; auto|auto].
      * rewrite Ec2. destruct (put_spec cl i c2) as (cl' & Ecl & Lcl & Gcl); [lia|]. rewrite Ecl, Em, Em'.
        assert (Ec : c2 = b ++ [true]).
        { apply bset_ext; [rewrite app_length, (Sz _ _ Eb); cbn; lia|]. intros a. apply eq_true_iff_eq. rewrite Mc2.
          assert (Lb := Sz _ _ Eb).
          assert (St : strictly p a i <-> exists x, In x l /\ (a = x \/ strictly p a x)).
          { split.
            - intros S. apply (gen_iff p _ G), last_step in S. destruct S as (k & (l' & El' & I) & K). unfold get in El. rewrite El in El'. injection El' as <-.
              exists k. split; [exact I|]. destruct K as [->|K]; [auto|]. right. apply (gen_iff p _ G). exact K.
            - intros (x & I & K). assert (X : strictly p x i) by (apply G; exists l; split; [exact El|exact I]).
              destruct K as [->|K]; [exact X|]. exact (proj2 ok _ _ _ K X). }
          rewrite <- St, (strictly_mem p a i b Eb). unfold bs_mem. destruct (Nat.lt_ge_cases a i) as [A|A].
          - rewrite app_nth1 by lia. split; [intros [->|]; [lia|auto]|auto].
          - rewrite app_nth2 by lia. rewrite Lb. destruct (Nat.eq_dec a i) as [->|].
            + rewrite Nat.sub_diag. cbn. tauto.
            + destruct (a - i) as [|k] eqn:Ek; [lia|]. replace (nth (S k) [true] false) with false by (destruct k; reflexivity).
              split; [|discriminate]. intros [|H]; [lia|]. change (bs_mem b a = true) in H. apply mem_lt in H. lia. }
        match goal with |- exists s', (match for_up ?k ?f ?body ?st with _ => _ end) = _ /\ _ =>
          destruct (for_up_rule (fun j c => length c = n /\ forall a, (a < m \/ m' <= a) -> get c a = get cl' a) k f body st) as (cl3 & E3 & L3 & G3) end.
        -- split; [lia|auto].
        -- intros j d Hj (Ld & Gd). destruct (put_spec d j []) as (d' & Ed & Ld' & Gd').
           { rewrite Ld. assert (m' <= n) by (eapply (Mono n (S i)); eauto; lia). lia. }
           exists d'. split; [exact Ed|]. split; [lia|]. intros a Ha. rewrite Gd'. destruct (Nat.eqb_spec a j); [lia|]. apply Gd. exact Ha.
        -- rewrite E3. eexists. split; [reflexivity|]. split; [exact L3|]. split.
           ++ subst c2. rewrite (total_S p i b Eb). unfold bs_size at 1. rewrite filter_app, app_length. cbn [filter length]. fold (bs_size b). lia.
           ++ intros m2 j bj Em2 Hj Ej. assert (m2 = m') by congruence; subst m2. rewrite G3 by lia. rewrite Gcl.
              destruct (Nat.eqb_spec j i) as [->|]; [congruence|]. apply (R2 m); [exact Em|lia|exact Ej].
    + rewrite E2. rewrite L. subst c. reflexivity.
Qed.

(** in a finite order every relation is a chain of covers *)
Lemma chain_of_covers p : poset_ok p -> forall n i j, j - i <= n -> strictly p i j -> clos_trans nat (covers p) i j.
Proof.
  intros (S & T) n. induction n as [|n IH]; intros i j H R; assert (A := strictly_lt p _ _ S R); [lia|].
  assert (Dec : forall z, {strictly p i z /\ strictly p z j} + {~ (strictly p i z /\ strictly p z j)}).
  { intros z. assert (Ds : forall a b, {strictly p a b} + {~ strictly p a b}).
    { intros a b. destruct (get p b) as [row|] eqn:E.
      - destruct (bs_mem row a) eqn:M; [left|right; intros H1; apply (strictly_mem p a b row E) in H1; congruence].
        apply (strictly_mem p a b row E). exact M.
      - right. intros (r & E' & _). unfold get in E. congruence. }
    destruct (Ds i z); [|right; tauto]. destruct (Ds z j); [left; auto|right; tauto]. }
  assert (F : forall k, (exists z, strictly p i z /\ strictly p z j) \/ forall z, z < k -> ~ (strictly p i z /\ strictly p z j)).
  { induction k as [|k [K|K]]; [right; intros; lia|auto|]. destruct (Dec k) as [D|D]; [left; eauto|]. right. intros z Hz.
    destruct (Nat.eq_dec z k) as [->|]; [exact D|apply K; lia]. }
  destruct (F j) as [(z & Z1 & Z2)|K].
  - assert (B1 := strictly_lt p _ _ S Z1). assert (B2 := strictly_lt p _ _ S Z2).
    eapply t_trans; [apply (IH i z); [lia|exact Z1]|apply (IH z j); [lia|exact Z2]].
  - apply t_step. split; [exact R|]. intros (z & Z1 & Z2). apply (K z); [|auto]. apply (strictly_lt p _ _ S Z2).
Qed.
Lemma hasse_round_trip p : poset_ok p -> exists h, hasseDiagram p = Some h /\ from_hasse h = Some p.
Proof.
  intros P. destruct (hasse_ok p P) as (h & E & L & R & _). exists h. split; [exact E|].
  destruct (from_hasse_ok h) as (q & Eq & Lq & Sq & G).
  - intros x y H. apply R in H. destruct H as [H _]. apply (strictly_lt p _ _ (proj1 P)) in H. lia.
  - rewrite Eq. f_equal. apply vec_ext; [lia|]. intros j Hj. destruct (get_some q j Hj) as [a Ea]. destruct (get_some p j) as [b Eb]; [lia|].
    rewrite Ea, Eb. f_equal. apply bset_ext; [rewrite (Sq _ _ Ea), (proj1 P _ _ Eb); reflexivity|]. intros i. apply eq_true_iff_eq.
    rewrite <- (strictly_mem q i j a Ea), <- (strictly_mem p i j b Eb), (gen_iff q _ G). split.
    + assert (K : forall x y, clos_trans nat (link h) x y -> strictly p x y); [|apply K].
      intros x y C. induction C as [x y H|x y z H1 IH1 H2 IH2]; [apply R in H; apply H|].
      exact (proj2 P _ _ _ IH1 IH2).
    + intros H. eapply clos_trans_mono; [|apply (chain_of_covers p P (j - i)); [lia|exact H]]. intros x y. apply R.
Qed.
