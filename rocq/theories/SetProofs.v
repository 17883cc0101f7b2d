(** Facts about the sets of SetModel.v, and their agreement with the word-level
    model of class BitMap. *)

From Coq Require Import List Arith Bool Lia ZArith.
From Verif Require BitmapModel BitmapSpec BitmapProps.
From Verif Require Import VecModel VecProofs PermProofs SetModel.
Import ListNotations.
Open Scope nat_scope.
Open Scope vec_scope.

Lemma mem_lt b i : bs_mem b i = true -> i < length b.
Proof.
  intros H. destruct (Nat.lt_ge_cases i (length b)); [auto|]. unfold bs_mem in H. rewrite nth_overflow in H by auto. discriminate.
Qed.
Lemma mem_ge b i : length b <= i -> bs_mem b i = false.
Proof. intros. apply nth_overflow. auto. Qed.
Lemma mem_get b i v : get b i = Some v -> bs_mem b i = v.
Proof. intros H. unfold bs_mem. apply get_nth_eq. exact H. Qed.
Lemma mem_new n i : bs_mem (bs_new n) i = false.
Proof. unfold bs_mem, bs_new. revert i. induction n; intros [|i]; cbn; auto. Qed.
Lemma new_len n : length (bs_new n) = n.
Proof. apply repeat_length. Qed.
Lemma bset_ext a b : length a = length b -> (forall i, bs_mem a i = bs_mem b i) -> a = b.
Proof.
  intros L H. apply nth_ext with (d := false) (d' := false); [exact L|]. intros i _. apply H.
Qed.
Lemma insert_ok b i : i < length b -> exists c, bs_insert b i = Some c /\ length c = length b /\
  forall j, bs_mem c j = (j =? i) || bs_mem b j.
Proof.
  intros H. destruct (put_spec b i true H) as (c & E & L & G). exists c. split; [exact E|]. split; [exact L|].
  intros j. destruct (Nat.lt_ge_cases j (length b)) as [Hj|Hj].
  - apply mem_get. rewrite G. destruct (Nat.eqb_spec j i) as [->|]; [reflexivity|]. cbn. unfold bs_mem. apply get_nth. exact Hj.
  - rewrite !mem_ge by lia. destruct (Nat.eqb_spec j i); [lia|reflexivity].
Qed.
Lemma zip_ok f a b : (forall x, f x false = x) -> length b <= length a ->
  exists c, bs_zip f a b = Some c /\ length c = length a /\ forall j, bs_mem c j = if j <? length a then f (bs_mem a j) (bs_mem b j) else false.
Proof.
  intros F. revert b. induction a as [|x a IH]; intros [|y b] H; try (cbn in H; lia).
  - exists []. repeat split. intros [|j]; reflexivity.
  - exists (x :: a). repeat split. intros j. destruct (Nat.ltb_spec j (length (x :: a))) as [L|L].
    + rewrite (mem_ge [] j) by (cbn; lia). rewrite F. reflexivity.
    + apply mem_ge. exact L.
  - cbn [bs_zip]. destruct (IH b) as (c & E & L & M); [cbn in H; lia|]. rewrite E. exists (f x y :: c). split; [reflexivity|].
    split; [cbn; congruence|]. intros [|j]; [reflexivity|]. exact (M j).
Qed.
Lemma or_ok a b : length b <= length a -> exists c, bs_or a b = Some c /\ length c = length a /\
  forall j, bs_mem c j = bs_mem a j || bs_mem b j.
Proof.
  intros H. destruct (zip_ok orb a b) as (c & E & L & M); [intros []; reflexivity|exact H|].
  exists c. split; [exact E|]. split; [exact L|]. intros j. rewrite M. destruct (Nat.ltb_spec j (length a)); [reflexivity|].
  rewrite !mem_ge by lia. reflexivity.
Qed.
Lemma andnot_ok a b : length b <= length a -> exists c, bs_andnot a b = Some c /\ length c = length a /\
  forall j, bs_mem c j = bs_mem a j && negb (bs_mem b j).
Proof.
  intros H. destruct (zip_ok (fun x y => x && negb y) a b) as (c & E & L & M); [intros []; reflexivity|exact H|].
  exists c. split; [exact E|]. split; [exact L|]. intros j. rewrite M. destruct (Nat.ltb_spec j (length a)); [reflexivity|].
  rewrite !mem_ge by lia. reflexivity.
Qed.
Lemma contains_ok a b : length b <= length a -> exists r, bs_contains a b = Some r /\
  (r = true <-> forall j, bs_mem b j = true -> bs_mem a j = true).
Proof.
  revert b. induction a as [|x a IH]; intros [|y b] H; try (cbn in H; lia).
  - exists true. split; [reflexivity|]. split; [|auto]. intros _ j. rewrite (mem_ge [] j) by (cbn; lia). auto.
  - exists true. split; [reflexivity|]. split; [|auto]. intros _ j. rewrite (mem_ge [] j) by (cbn; lia). discriminate.
  - cbn [bs_contains]. destruct (IH b) as (r & E & R); [cbn in H; lia|]. rewrite E. eexists. split; [reflexivity|].
    rewrite andb_true_iff, R. split.
    + intros [A B] [|j]; [|apply B]. cbn. destruct x, y; cbn in *; congruence.
    + intros A. split; [|intros j; apply (A (S j))]. specialize (A 0). cbn in A. destruct x, y; cbn in *; auto.
Qed.
Lemma disjoint_ok a b : bs_disjoint a b = true <-> forall j, bs_mem a j && bs_mem b j = false.
Proof.
  revert b. induction a as [|x a IH]; intros [|y b]; cbn [bs_disjoint].
  - split; [|auto]. intros _ [|j]; reflexivity.
  - split; [|auto]. intros _ [|j]; reflexivity.
  - split; [|auto]. intros _ j. rewrite (mem_ge [] j) by (cbn; lia). apply andb_false_r.
  - rewrite andb_true_iff, IH. split.
    + intros [A B] [|j]; [|apply B]. cbn. destruct (x && y); cbn in *; congruence.
    + intros A. split; [|intros j; apply (A (S j))]. specialize (A 0). cbn in A. rewrite A. reflexivity.
Qed.
Lemma bs_eqb_ok a b : bs_eqb a b = true <-> a = b.
Proof.
  revert b. induction a as [|x a IH]; intros [|y b]; cbn [bs_eqb]; try (split; congruence).
  rewrite andb_true_iff, IH. rewrite Bool.eqb_true_iff. split; [intros [-> ->]; reflexivity|intros E; injection E; auto].
Qed.
Lemma back_ok b x : match bs_back b x with
  | Some y => y < x /\ bs_mem b y = true /\ forall j, y < j < x -> bs_mem b j = false
  | None => forall j, j < x -> bs_mem b j = false end.
Proof.
  induction x as [|x IH]; cbn [bs_back]; [intros; lia|]. destruct (bs_mem b x) eqn:E.
  - split; [lia|]. split; [exact E|]. intros; lia.
  - destruct (bs_back b x) as [y|].
    + destruct IH as (A & B & C). split; [lia|]. split; [exact B|]. intros j Hj. destruct (Nat.eq_dec j x) as [->|]; [exact E|]. apply C. lia.
    + intros j Hj. destruct (Nat.eq_dec j x) as [->|]; [exact E|]. apply IH. lia.
Qed.
Lemma next_from_ok b n x : match bs_next_from b x n with
  | Some y => x <= y < x + n /\ bs_mem b y = true /\ forall j, x <= j < y -> bs_mem b j = false
  | None => forall j, x <= j < x + n -> bs_mem b j = false end.
Proof.
  revert x. induction n as [|n IH]; intros x; cbn [bs_next_from]; [intros; lia|]. destruct (bs_mem b x) eqn:E.
  - split; [lia|]. split; [exact E|]. intros; lia.
  - specialize (IH (S x)). destruct (bs_next_from b (S x) n) as [y|].
    + destruct IH as (A & B & C). split; [lia|]. split; [exact B|]. intros j Hj. destruct (Nat.eq_dec j x) as [->|]; [exact E|]. apply C. lia.
    + intros j Hj. destruct (Nat.eq_dec j x) as [->|]; [exact E|]. apply IH. lia.
Qed.
Lemma next_ok b x : match bs_next b x with
  | Some y => x <= y < length b /\ bs_mem b y = true /\ forall j, x <= j < y -> bs_mem b j = false
  | None => forall j, x <= j -> bs_mem b j = false end.
Proof.
  unfold bs_next. assert (H := next_from_ok b (length b - x) x). destruct (bs_next_from b x (length b - x)) as [y|].
  - destruct H as (A & B & C). split; [lia|]. auto.
  - intros j Hj. destruct (Nat.lt_ge_cases j (length b)); [apply H; lia|]. apply mem_ge. auto.
Qed.
Lemma elems_In b i : In i (bs_elems b) <-> bs_mem b i = true.
Proof.
  unfold bs_elems. rewrite filter_In, in_seq. split; [tauto|]. intros H. split; [|exact H]. apply mem_lt in H. lia.
Qed.
Lemma size_elems b : bs_size b = length (bs_elems b).
Proof.
  unfold bs_size, bs_elems. induction b as [|x b IH] using rev_ind; [reflexivity|].
  rewrite filter_app, app_length, IH, app_length. cbn [length]. rewrite Nat.add_1_r, seq_S, filter_app, app_length. cbn [plus].
  f_equal.
  - f_equal. apply filter_ext_in. intros i Hi. apply in_seq in Hi. unfold bs_mem. rewrite app_nth1 by lia. reflexivity.
  - cbn [filter]. unfold bs_mem. rewrite app_nth2, Nat.sub_diag by lia. cbn. destruct x; reflexivity.
Qed.
Lemma of_list_ok n l : (forall x, In x l -> x < n) -> exists b, bs_of_list n l = Some b /\ length b = n /\
  forall j, bs_mem b j = true <-> In j l.
Proof.
  intros H. unfold bs_of_list.
  destruct (for_each_rule (fun p b => length b = n /\ forall j, bs_mem b j = true <-> In j p) l (fun x b => bs_insert b x) (bs_new n))
    as (b & E & L & M); [| |eauto].
  - split; [apply new_len|]. intros j. rewrite mem_new. cbn. split; [discriminate|tauto].
  - intros p x q b El (L & M). destruct (insert_ok b x) as (c & E & L' & M').
    + rewrite L. apply H. rewrite El. apply in_or_app. right. left. reflexivity.
    + exists c. split; [exact E|]. split; [lia|]. intros j. rewrite M', orb_true_iff, M, in_app_iff, Nat.eqb_eq. cbn. intuition.
Qed.

(** ** agreement with the words *)
Definition rep (w : BitmapModel.bitmap) (b : bset) : Prop :=
  BitmapSpec.wf w /\ BitmapModel.cap w = Z.of_nat (length b) /\ forall i, BitmapModel.isMember w (Z.of_nat i) = bs_mem b i.

Lemma gives_rep o c P b : BitmapSpec.gives o c P -> c = Z.of_nat (length b) -> (forall i, P (Z.of_nat i) = bs_mem b i) ->
  exists w, o = Some w /\ rep w b.
Proof.
  intros (w & E & W & C & M) Ec H. exists w. split; [exact E|]. split; [exact W|]. split; [congruence|].
  intros i. rewrite M by lia. apply H.
Qed.
Lemma rep_new n : rep (BitmapModel.bm_make (Z.of_nat n)) (bs_new n).
Proof.
  destruct (gives_rep _ _ _ (bs_new n) (BitmapProps.C22_make (Z.of_nat n) ltac:(lia))) as (w & E & R).
  - rewrite new_len. reflexivity.
  - intros i. rewrite mem_new. reflexivity.
  - injection E as <-. exact R.
Qed.
Lemma rep_insert w b i c : rep w b -> bs_insert b i = Some c -> exists w', BitmapModel.insert w (Z.of_nat i) = Some w' /\ rep w' c.
Proof.
  intros (W & C & M) E. destruct (put_inv _ _ _ _ E) as (L & _). destruct (insert_ok b i L) as (c' & E' & L' & M').
  rewrite E in E'. injection E' as <-.
  assert (G := BitmapProps.C22_step (BitmapSpec.OInsert (Z.of_nat i)) w W). cbn [BitmapSpec.op_legal BitmapSpec.op_set fst snd] in G.
  eapply gives_rep; [apply G; lia|lia|]. intros j. cbn beta. rewrite M, M'. f_equal.
  destruct (Nat.eqb_spec j i), (Z.eqb_spec (Z.of_nat j) (Z.of_nat i)); try reflexivity; lia.
Qed.
Lemma zip_len f a b c : bs_zip f a b = Some c -> length b <= length a.
Proof.
  revert b c. induction a as [|x a IH]; intros [|y b] c E; cbn; try lia; [discriminate|].
  cbn in E. destruct (bs_zip f a b) eqn:E'; [|discriminate]. specialize (IH _ _ E'). lia.
Qed.
Lemma rep_or w b v a c : rep w b -> rep v a -> bs_or b a = Some c -> exists w', BitmapModel.bm_or w v = Some w' /\ rep w' c.
Proof.
  intros (W & C & M) (W2 & C2 & M2) E. assert (L := zip_len _ _ _ _ E).
  destruct (or_ok b a L) as (c' & E' & L' & M'). rewrite E in E'. injection E' as <-.
  assert (G := BitmapProps.C22_step (BitmapSpec.OOr v) w W). cbn [BitmapSpec.op_legal BitmapSpec.op_set fst snd] in G.
  eapply gives_rep; [apply G; split; [exact W2|lia]|lia|]. intros j. cbn beta. rewrite M, M2, M'. reflexivity.
Qed.
Lemma rep_andnot w b v a c : rep w b -> rep v a -> bs_andnot b a = Some c -> exists w', BitmapModel.bm_andnot w v = Some w' /\ rep w' c.
Proof.
  intros (W & C & M) (W2 & C2 & M2) E. assert (L := zip_len _ _ _ _ E).
  destruct (andnot_ok b a L) as (c' & E' & L' & M'). rewrite E in E'. injection E' as <-.
  assert (G := BitmapProps.C22_step (BitmapSpec.OAndNot v) w W). cbn [BitmapSpec.op_legal BitmapSpec.op_set fst snd] in G.
  eapply gives_rep; [apply G; split; [exact W2|lia]|lia|]. intros j. cbn beta. rewrite M, M2, M'. reflexivity.
Qed.
Lemma contains_len a b r : bs_contains a b = Some r -> length b <= length a.
Proof.
  revert b r. induction a as [|x a IH]; intros [|y b] r E; cbn; try lia; [discriminate|].
  cbn in E. destruct (bs_contains a b) eqn:E'; [|discriminate]. specialize (IH _ _ E'). lia.
Qed.
Lemma bool_iff a b (P : Prop) : (a = true <-> P) -> (b = true <-> P) -> a = b.
Proof. destruct a, b; intros A B; try reflexivity; exfalso; [assert (H : P) by (apply A; auto); apply B in H|assert (H : P) by (apply B; auto); apply A in H]; discriminate. Qed.
Lemma all_Z (P : Z -> Prop) : (forall n, (0 <= n)%Z -> P n) <-> forall j, P (Z.of_nat j).
Proof. split; intros H; [intros j; apply H; lia|]. intros n Hn. rewrite <- (Z2Nat.id n Hn). apply H. Qed.
Lemma rep_contains w b v a r : rep w b -> rep v a -> bs_contains b a = Some r -> BitmapModel.contains w v = Some r.
Proof.
  intros (W & C & M) (W2 & C2 & M2) E. assert (L := contains_len _ _ _ E).
  destruct (contains_ok b a L) as (r' & E' & R). rewrite E in E'. injection E' as <-.
  destruct (BitmapProps.C23_contains w v W W2) as (r' & -> & R'); [lia|]. f_equal. eapply bool_iff; [exact R'|]. rewrite R.
  rewrite all_Z. split; intros H j; specialize (H j); rewrite M, M2 in *; exact H.
Qed.
Lemma rep_disjoint w b v a : rep w b -> rep v a -> BitmapModel.disjoint w v = bs_disjoint b a.
Proof.
  intros (W & C & M) (W2 & C2 & M2). eapply bool_iff; [apply BitmapProps.C23_disjoint; assumption|]. rewrite disjoint_ok.
  rewrite all_Z. split; intros H j; specialize (H j); rewrite M, M2 in *; exact H.
Qed.
Lemma rep_eqb w b v a : rep w b -> rep v a -> length b = length a -> BitmapModel.bm_eqb w v = bs_eqb b a.
Proof.
  intros (W & C & M) (W2 & C2 & M2) L. eapply bool_iff; [apply BitmapProps.C23_equal; [assumption|assumption|lia]|]. rewrite bs_eqb_ok.
  rewrite all_Z. split.
  - intros -> j. rewrite M, M2. reflexivity.
  - intros H. apply bset_ext; [exact L|]. intros j. specialize (H j). rewrite M, M2 in H. exact H.
Qed.
Lemma rep_size w b : rep w b -> BitmapModel.size w = Z.of_nat (bs_size b).
Proof.
  intros (W & C & M). rewrite (BitmapProps.C23_size w W), C, Nat2Z.id, size_elems. unfold bs_elems.
  clear C.   induction (length b) as [|n IH]; [reflexivity|]. rewrite seq_S, filter_app, app_length. cbn [BitmapSpec.count plus filter].
  rewrite IH, M. destruct (bs_mem b n); cbn [length]; lia.
Qed.
Lemma rep_back w b x : rep w b -> x <= length b -> (Z.of_nat (length b) <= 2 ^ 32)%Z ->
  BitmapModel.back_up w (Z.of_nat x) = Some (option_map Z.of_nat (bs_back b x)).
Proof.
  intros (W & C & M) Hx HL. assert (H := back_ok b x).
  destruct (BitmapProps.C23_back_up_partial w (Z.of_nat x) W) as [(r & E & R1 & R2 & R3)|(E & R)]; [lia|lia| |].
  - rewrite E. destruct (bs_back b x) as [y|]; cbn [option_map].
    + destruct H as (A & B & D). do 2 f_equal. rewrite <- (Z2Nat.id r) in * by lia. rewrite M in R2.
      destruct (Z.lt_trichotomy (Z.of_nat (Z.to_nat r)) (Z.of_nat y)) as [T|[T|T]]; [|exact T|].
      * rewrite <- M, R3 in B by lia. discriminate.
      * rewrite D in R2 by lia. discriminate.
    + rewrite <- (Z2Nat.id r) in * by lia. rewrite M, H in R2 by lia. discriminate.
  - rewrite E. destruct (bs_back b x) as [y|]; [|reflexivity]. destruct H as (A & B & D). rewrite <- M, R in B by lia. discriminate.
Qed.
(** one step of the iterator, on the present contents of the bitmap *)
Lemma rep_next w b x : rep w b -> x < length b ->
  exists i', BitmapModel.it_next (BitmapModel.words w) (BitmapModel.mki (Z.of_nat x / 64) (Z.of_nat x) (Z.of_nat (length b))) = Some i' /\
    BitmapModel.addr i' = match bs_next b (S x) with Some y => Z.of_nat y | None => Z.of_nat (length b) end.
Proof.
  intros (W & C & M) Hx. destruct (BitmapProps.C24_next w (BitmapModel.mki (Z.of_nat x / 64) (Z.of_nat x) (Z.of_nat (length b))) W) as (i' & E & _ & (F1 & F2 & F3) & _); cbn [BitmapModel.addr BitmapModel.icap BitmapModel.chunk] in *; try lia.
  exists i'. split; [exact E|]. assert (H := next_ok b (S x)). destruct (bs_next b (S x)) as [y|].
  - destruct H as (A & B & D). destruct (Z.lt_trichotomy (BitmapModel.addr i') (Z.of_nat y)) as [T|[T|T]]; [|exact T|].
    + exfalso. rewrite C in F3. specialize (F3 ltac:(lia)). rewrite <- (Z2Nat.id (BitmapModel.addr i')) in F3 by lia.
      rewrite M, D in F3 by lia. discriminate.
    + exfalso. rewrite <- M, F2 in B by lia. discriminate.
  - destruct (Z.eq_dec (BitmapModel.addr i') (Z.of_nat (length b))) as [T|T]; [exact T|]. exfalso.
    specialize (F3 ltac:(lia)). rewrite <- (Z2Nat.id (BitmapModel.addr i')) in F3 by lia. rewrite M, H in F3 by lia. discriminate.
Qed.
