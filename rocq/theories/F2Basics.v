(** Linear algebra over the field with two elements: facts used for F2Model.v *)

From Coq Require Import List Arith NArith ZArith Lia Bool.
From Verif Require Import VecModel VecProofs RunModel RunProofs F2Model F2Spec.
Import ListNotations.
Open Scope nat_scope.

Notation sure := (fun _ : err => False).

(** *** coordinates *)

Lemma bit_coord s i : bit s i = coord s i.
Proof. reflexivity. Qed.
Lemma coord_ext v w : (forall i, coord v i = coord w i) -> v = w.
Proof. intros H. apply N.bits_inj. intros i. specialize (H (N.to_nat i)). unfold coord in H. now rewrite N2Nat.id in H. Qed.
Lemma coord_0 i : coord 0 i = false.
Proof. apply N.bits_0. Qed.
Lemma coord_lxor v w i : coord (N.lxor v w) i = xorb (coord v i) (coord w i).
Proof. apply N.lxor_spec. Qed.
Lemma coord_land v w i : coord (N.land v w) i = coord v i && coord w i.
Proof. apply N.land_spec. Qed.
Lemma coord_setbit v i j : coord (N.setbit v (N.of_nat i)) j = (j =? i) || coord v j.
Proof.
  unfold coord. rewrite N.setbit_eqb. f_equal. destruct (N.eqb_spec (N.of_nat i) (N.of_nat j)), (Nat.eqb_spec j i); auto; lia.
Qed.
Lemma coord_clearbit v i j : coord (N.clearbit v (N.of_nat i)) j = coord v j && negb (j =? i).
Proof.
  unfold coord. rewrite N.clearbit_eqb. do 2 f_equal. destruct (N.eqb_spec (N.of_nat i) (N.of_nat j)), (Nat.eqb_spec j i); auto; lia.
Qed.
Lemma coord_ones n i : coord (N.ones (N.of_nat n)) i = (i <? n).
Proof.
  unfold coord. destruct (Nat.ltb_spec i n); [apply N.ones_spec_low|apply N.ones_spec_high]; lia.
Qed.
Lemma coord_shiftr v k i : coord (N.shiftr v (N.of_nat k)) i = coord v (i + k).
Proof. unfold coord. rewrite N.shiftr_spec by lia. f_equal. lia. Qed.
Lemma coord_if (b : bool) v i : coord (if b then v else 0%N) i = b && coord v i.
Proof. destruct b; [auto|apply coord_0]. Qed.
Lemma coord_nonzero v : v <> 0%N -> exists i, coord v i = true.
Proof.
  intros H. exists (N.to_nat (N.log2 v)). unfold coord. rewrite N2Nat.id. now apply N.bit_log2.
Qed.

Lemma pos_first_leads p : leads (Npos p) (pos_first p).
Proof.
  induction p as [p IH|p IH|]; cbn [pos_first].
  - split; [reflexivity|lia].
  - destruct IH as [A B]. split.
    + unfold coord in *. change (N.pos p~0) with (2 * N.pos p)%N. rewrite Nat2N.inj_succ, N.testbit_even_succ by lia. auto.
    + intros [|i] Hi; [reflexivity|]. unfold coord in *. change (N.pos p~0) with (2 * N.pos p)%N.
      rewrite Nat2N.inj_succ, N.testbit_even_succ by lia. apply B. lia.
  - split; [reflexivity|lia].
Qed.
Lemma firstBit_leads v : v <> 0%N -> leads v (firstBit v).
Proof. destruct v; [tauto|]. intros _. apply pos_first_leads. Qed.
Lemma leads_unique v p q : leads v p -> leads v q -> p = q.
Proof.
  intros [A B] [C D]. destruct (Nat.lt_trichotomy p q) as [H|[H|H]]; auto.
  - specialize (D p H). congruence. - specialize (B q H). congruence.
Qed.
Lemma leads_first v p : leads v p -> firstBit v = p.
Proof.
  intros H. apply (leads_unique v); auto. apply firstBit_leads. intros ->. destruct H as [H _]. now rewrite coord_0 in H.
Qed.

Lemma within_0 n : within n 0.
Proof. intros i _. apply coord_0. Qed.
Lemma within_lxor n v w : within n v -> within n w -> within n (N.lxor v w).
Proof. intros A B i H. rewrite coord_lxor, A, B; auto. Qed.
Lemma within_lt n v i : within n v -> coord v i = true -> i < n.
Proof. intros H E. destruct (Nat.lt_ge_cases i n); [auto|]. rewrite H in E; [discriminate|auto]. Qed.
Lemma within_mono m n v : m <= n -> within m v -> within n v.
Proof. intros L H i Hi. apply H. lia. Qed.
Lemma within_ext n v w : within n v -> within n w -> (forall i, i < n -> coord v i = coord w i) -> v = w.
Proof.
  intros A B H. apply coord_ext. intros i. destruct (Nat.lt_ge_cases i n); [auto|]. now rewrite A, B.
Qed.
Lemma lxor_cancel a b : N.lxor a (N.lxor a b) = b.
Proof. now rewrite <- N.lxor_assoc, N.lxor_nilpotent, N.lxor_0_l. Qed.
Lemma lxor_move a b c : N.lxor a b = c -> a = N.lxor b c.
Proof. intros <-. rewrite (N.lxor_comm a b). now rewrite lxor_cancel. Qed.

(** *** sums *)

Lemma sum2_ext n f g : (forall i, i < n -> f i = g i) -> sum2 n f = sum2 n g.
Proof. induction n as [|n IH]; cbn; intros H; [auto|]. rewrite IH, H; auto. Qed.
Lemma sum2_zero n f : (forall i, i < n -> f i = false) -> sum2 n f = false.
Proof. induction n as [|n IH]; cbn; intros H; [auto|]. rewrite IH, H; auto. Qed.
Lemma sum2_xor n f g : sum2 n (fun i => xorb (f i) (g i)) = xorb (sum2 n f) (sum2 n g).
Proof.
  induction n as [|n IH]; cbn; [auto|]. rewrite IH.
  destruct (sum2 n f), (sum2 n g), (f n), (g n); auto.
Qed.
Lemma sum2_and n b f : sum2 n (fun i => b && f i) = b && sum2 n f.
Proof. induction n as [|n IH]; cbn; [now rewrite andb_false_r|]. rewrite IH. destruct b; cbn; auto. Qed.
Lemma sum2_exchange m n f : sum2 m (fun i => sum2 n (f i)) = sum2 n (fun j => sum2 m (fun i => f i j)).
Proof.
  induction m as [|m IH]; cbn; [symmetry; apply sum2_zero; auto|]. rewrite IH. now rewrite <- sum2_xor.
Qed.
Lemma sum2_single n k f : k < n -> (forall i, i < n -> i <> k -> f i = false) -> sum2 n f = f k.
Proof.
  induction n as [|n IH]; cbn; intros H Z; [lia|]. destruct (Nat.eq_dec k n) as [->|E].
  - rewrite sum2_zero by (intros; apply Z; lia). now destruct (f n).
  - rewrite IH by (auto; lia). rewrite (Z n) by lia. now destruct (f k).
Qed.
Lemma sum2_shift n f : sum2 (S n) f = xorb (f 0) (sum2 n (fun i => f (S i))).
Proof.
  induction n as [|n IH]; [cbn; now destruct (f 0)|]. change (sum2 (S (S n)) f) with (xorb (sum2 (S n) f) (f (S n))). rewrite IH.
  cbn. now rewrite xorb_assoc.
Qed.
Lemma sum2_app m n f : sum2 (m + n) f = xorb (sum2 m f) (sum2 n (fun i => f (m + i))).
Proof.
  induction n as [|n IH]; [now rewrite Nat.add_0_r; cbn; destruct (sum2 m f)|]. rewrite Nat.add_succ_r. cbn. rewrite IH.
  now rewrite xorb_assoc.
Qed.

(** *** combinations *)

Lemma coord_lincomb c b i : coord (lincomb c b) i = sum2 (length b) (fun k => c k && coord (nth k b 0%N) i).
Proof.
  revert c. induction b as [|x b IH]; intros c; [apply coord_0|]. cbn [lincomb length].
  rewrite coord_lxor, coord_if, IH, sum2_shift. auto.
Qed.
Lemma lincomb_ext c d b : (forall i, i < length b -> c i = d i) -> lincomb c b = lincomb d b.
Proof. intros H. apply coord_ext. intros i. rewrite !coord_lincomb. apply sum2_ext. intros k Hk. now rewrite H. Qed.
Lemma lincomb_0 c b : (forall i, i < length b -> c i = false) -> lincomb c b = 0%N.
Proof. intros H. apply coord_ext. intros i. rewrite coord_lincomb, coord_0. apply sum2_zero. intros k Hk. now rewrite H. Qed.
Lemma lincomb_xor c d b : lincomb (fun i => xorb (c i) (d i)) b = N.lxor (lincomb c b) (lincomb d b).
Proof.
  apply coord_ext. intros i. rewrite coord_lxor, !coord_lincomb, <- sum2_xor. apply sum2_ext. intros k _.
  destruct (c k), (d k), (coord _ i); auto.
Qed.
Lemma lincomb_app c a b : lincomb c (a ++ b) = N.lxor (lincomb c a) (lincomb (fun i => c (length a + i)) b).
Proof.
  revert c. induction a as [|x a IH]; intros c; cbn [app lincomb length]; [now rewrite N.lxor_0_l|].
  rewrite IH, N.lxor_assoc. reflexivity.
Qed.
Lemma lincomb_single k b : k < length b -> lincomb (fun i => i =? k) b = nth k b 0%N.
Proof.
  intros H. apply coord_ext. intros i. rewrite coord_lincomb, (sum2_single _ k); auto.
  - now rewrite Nat.eqb_refl.
  - intros j _ N. apply Nat.eqb_neq in N. now rewrite N.
Qed.
Lemma lincomb_if (t : bool) c b : lincomb (fun i => t && c i) b = if t then lincomb c b else 0%N.
Proof. destruct t; [apply lincomb_ext; auto|]. apply lincomb_0. auto. Qed.

Lemma span_0 b : in_span b 0%N.
Proof. exists (fun _ => false). now apply lincomb_0. Qed.
Lemma span_in b x : In x b -> in_span b x.
Proof.
  intros H. destruct (In_nth b x 0%N H) as (k & L & E). exists (fun i => i =? k). now rewrite lincomb_single.
Qed.
Lemma span_xor b v w : in_span b v -> in_span b w -> in_span b (N.lxor v w).
Proof. intros [c <-] [d <-]. exists (fun i => xorb (c i) (d i)). apply lincomb_xor. Qed.
(** the span is the least subspace containing the vectors *)
Lemma span_least (S : N -> Prop) b : S 0%N -> (forall v w, S v -> S w -> S (N.lxor v w)) -> (forall x, In x b -> S x) ->
  forall v, in_span b v -> S v.
Proof.
  intros H0 HX HB v [c <-]. revert c. induction b as [|x b IH]; intros c; cbn [lincomb]; [auto|].
  apply HX; [|apply IH; intros; apply HB; now right]. destruct (c 0); [apply HB; now left|auto].
Qed.
Lemma span_incl a b : (forall x, In x a -> in_span b x) -> forall v, in_span a v -> in_span b v.
Proof. intros H. apply span_least; [apply span_0|apply span_xor|auto]. Qed.
Lemma span_xor_l b v w : in_span b w -> in_span b (N.lxor v w) -> in_span b v.
Proof. intros H1 H2. replace v with (N.lxor (N.lxor v w) w); [now apply span_xor|]. now rewrite N.lxor_assoc, N.lxor_nilpotent, N.lxor_0_r. Qed.
Lemma span_within n b : (forall x, In x b -> within n x) -> forall v, in_span b v -> within n v.
Proof. intros H. apply span_least; [apply within_0|apply within_lxor|auto]. Qed.
Lemma span_nil v : in_span [] v -> v = 0%N.
Proof. now intros [c <-]. Qed.

(** *** triangular and reduced families *)

(** [f] gives leading positions, and the position of each vector is zero in the later ones *)
Record triangular (a : list N) (f : list nat) : Prop := {
  tr_length : length a = length f;
  tr_leads : forall i v p, nth_error a i = Some v -> nth_error f i = Some p -> leads v p;
  tr_clear : forall i j v p, i < j -> nth_error a j = Some v -> nth_error f i = Some p -> coord v p = false }.
Record reduced (a : list N) (f : list nat) : Prop := {
  rd_length : length a = length f;
  rd_leads : forall i v p, nth_error a i = Some v -> nth_error f i = Some p -> leads v p;
  rd_clear : forall i j v p, nth_error a i = Some v -> nth_error f j = Some p -> coord v p = (i =? j) }.
Lemma reduced_triangular a f : reduced a f -> triangular a f.
Proof.
  intros [A B C]. constructor; auto. intros i j v p L Ev Ep. rewrite (C j i v p Ev Ep).
  destruct (Nat.eqb_spec j i); [lia|auto].
Qed.
Lemma nth_nth_error {A} (l : list A) i d : i < length l -> nth_error l i = Some (nth i l d).
Proof. intros H. now apply nth_error_nth'. Qed.

Lemma triangular_independent a f : triangular a f -> independent a.
Proof.
  intros [L HL HC] c E.
  (* by strong induction on the index *)
  intros i. induction i as [i IH] using lt_wf_ind. intros Hi.
  assert (Hf : i < length f) by lia.
  pose proof (nth_nth_error a i 0%N Hi) as Ea. pose proof (nth_nth_error f i 0 Hf) as Ef.
  assert (coord (lincomb c a) (nth i f 0) = c i) as X.
  { rewrite coord_lincomb, (sum2_single _ i); auto.
    - destruct (HL i _ _ Ea Ef) as [T _]. now rewrite T, andb_true_r.
    - intros k Hk N. destruct (Nat.lt_ge_cases k i) as [L1|L1].
      + rewrite IH; auto; lia.
      + rewrite (HC i k (nth k a 0%N) (nth i f 0)); [apply andb_false_r|lia| |auto]. now apply nth_nth_error. }
  rewrite E, coord_0 in X. auto.
Qed.
Lemma reduced_coords a f c j : reduced a f -> j < length a -> coord (lincomb c a) (nth j f 0) = c j.
Proof.
  intros [L HL HC] Hj. rewrite coord_lincomb, (sum2_single _ j); auto.
  - rewrite (HC j j (nth j a 0%N) (nth j f 0)); [now rewrite Nat.eqb_refl, andb_true_r|apply nth_nth_error; lia|apply nth_nth_error; lia].
  - intros k Hk N. rewrite (HC k j (nth k a 0%N) (nth j f 0)); [|apply nth_nth_error; lia|apply nth_nth_error; lia].
    apply Nat.eqb_neq in N. now rewrite N, andb_false_r.
Qed.
Lemma reduced_expand a f v : reduced a f -> in_span a v -> v = lincomb (fun j => coord v (nth j f 0)) a.
Proof.
  intros R [c <-]. apply lincomb_ext. intros i Hi. symmetry. now apply reduced_coords.
Qed.
Lemma reduced_zero a f v : reduced a f -> in_span a v -> (forall p, In p f -> coord v p = false) -> v = 0%N.
Proof.
  intros R S Z. rewrite (reduced_expand a f v R S). apply lincomb_0. intros i Hi. apply Z. apply nth_In.
  rewrite <- (rd_length a f R). auto.
Qed.
(** the leading position of an element of the span is one of those of the family *)
Lemma reduced_leads a f v p : reduced a f -> in_span a v -> leads v p -> In p f.
Proof.
  intros R S [A B]. destruct (in_dec Nat.eq_dec p f) as [I|I]; [auto|exfalso].
  (* p is leading in v; all coordinates of v at positions of f below p vanish *)
  rewrite (reduced_expand a f v R S), coord_lincomb in A. rewrite sum2_zero in A; [discriminate|].
  intros k Hk. destruct (coord v (nth k f 0)) eqn:E; [|auto]. cbn [andb].
  assert (Hf : k < length f) by (rewrite <- (rd_length a f R); auto).
  destruct (rd_leads a f R k (nth k a 0%N) (nth k f 0)) as [C D]; [now apply nth_nth_error|now apply nth_nth_error|].
  apply D. destruct (Nat.lt_trichotomy (nth k f 0) p) as [H|[H|H]]; auto.
  - rewrite B in E by auto. discriminate.
  - exfalso. apply I. rewrite <- H. now apply nth_In.
Qed.
Lemma reduced_nodup a f : reduced a f -> NoDup f.
Proof.
  intros [L HL HC]. apply NoDup_nth_error. intros i j Hi E.
  destruct (nth_error f i) as [p|] eqn:Ei; [|apply nth_error_None in Ei; lia].
  assert (Ha : i < length a) by lia. pose proof (HC i i _ p (nth_nth_error a i 0%N Ha) Ei) as X.
  rewrite (HC i j _ p (nth_nth_error a i 0%N Ha) (eq_sym E)) in X. rewrite Nat.eqb_refl in X. now apply Nat.eqb_eq.
Qed.

(** uniqueness of the reduced echelon form *)
Lemma sorted_same f g : (forall i j p q, i < j -> nth_error f i = Some p -> nth_error f j = Some q -> p < q) ->
  (forall i j p q, i < j -> nth_error g i = Some p -> nth_error g j = Some q -> p < q) ->
  (forall p, In p f <-> In p g) -> f = g.
Proof.
  revert g. induction f as [|x f IH]; intros [|y g] SF SG H; auto.
  - destruct (proj2 (H y) (or_introl eq_refl)).
  - destruct (proj1 (H x) (or_introl eq_refl)).
  - assert (FX : forall p, In p f -> x < p).
    { intros p I. apply In_nth_error in I as [k E]. apply (SF 0 (S k)); auto; lia. }
    assert (GX : forall p, In p g -> y < p).
    { intros p I. apply In_nth_error in I as [k E]. apply (SG 0 (S k)); auto; lia. }
    assert (x = y).
    { destruct (proj1 (H x) (or_introl eq_refl)) as [|I1]; [auto|].
      destruct (proj2 (H y) (or_introl eq_refl)) as [|I2]; [auto|]. specialize (FX _ I2). specialize (GX _ I1). lia. }
    subst y. f_equal. apply IH.
    + intros i j p q L A B. apply (SF (S i) (S j)); auto; lia.
    + intros i j p q L A B. apply (SG (S i) (S j)); auto; lia.
    + intros p. specialize (H p). cbn in H. split; intros I.
      * destruct (proj1 H (or_intror I)) as [<-|]; [|auto]. specialize (FX _ I). lia.
      * destruct (proj2 H (or_intror I)) as [<-|]; [|auto]. specialize (GX _ I). lia.
Qed.
Lemma echelon_reduced a f : reduced_echelon a f -> reduced a f.
Proof. intros [A B C D]. constructor; auto. Qed.
Lemma echelon_unique a f b g : reduced_echelon a f -> reduced_echelon b g ->
  (forall v, in_span a v <-> in_span b v) -> a = b /\ f = g.
Proof.
  intros RA RB H. pose proof (echelon_reduced a f RA) as A. pose proof (echelon_reduced b g RB) as B.
  assert (sub : forall a f b g, reduced a f -> reduced b g -> (forall v, in_span a v -> in_span b v) -> forall p, In p f -> In p g).
  { clear. intros a f b g A B H p I. apply In_nth_error in I as [k E].
    assert (Hk : k < length a). { rewrite (rd_length a f A). apply nth_error_Some. congruence. }
    apply (reduced_leads b g (nth k a 0%N) p B).
    - apply H, span_in, nth_In; auto.
    - apply (rd_leads a f A k); auto. now apply nth_nth_error. }
  assert (FG : f = g).
  { apply sorted_same; [apply (re_increasing a f RA)|apply (re_increasing b g RB)|].
    intros p. split; eapply sub; eauto; intros v; apply H. }
  split; [|auto]. subst g.
  apply nth_ext with (d := 0%N) (d' := 0%N); [rewrite (rd_length a f A), (rd_length b f B); auto|].
  intros k Hk. assert (Hb : k < length b) by (rewrite (rd_length b f B), <- (rd_length a f A); auto).
  assert (S : in_span b (nth k a 0%N)) by (apply H, span_in, nth_In; auto).
  rewrite (reduced_expand b f _ B S).
  rewrite (lincomb_ext _ (fun i => i =? k)); [now apply lincomb_single|].
  intros i Hi. rewrite (rd_clear a f A k i (nth k a 0%N) (nth i f 0)); [apply Nat.eqb_sym|now apply nth_nth_error|].
  apply nth_nth_error. rewrite <- (rd_length b f B). auto.
Qed.

(** *** bits of the model *)

Section Dim.
Variable dim : nat.

Lemma test_ok s i : i < dim -> test dim s i = Ok (coord s i).
Proof. intros H. unfold test. apply Nat.ltb_lt in H. now rewrite H. Qed.
Lemma assign_ok s i b : i < dim -> exists s', assign dim s i b = Ok s' /\
  forall j, coord s' j = if j =? i then b else coord s j.
Proof.
  intros H. unfold assign. apply Nat.ltb_lt in H. rewrite H. eexists. split; [reflexivity|].
  intros j. destruct b; [rewrite coord_setbit|rewrite coord_clearbit]; destruct (j =? i); cbn; auto; [apply andb_false_r|apply andb_true_r].
Qed.
Lemma gives_assign s i b (P : N -> Prop) E : i < dim ->
  (forall s', (forall j, coord s' j = if j =? i then b else coord s j) -> P s') -> gives (assign dim s i b) P E.
Proof. intros H HP. destruct (assign_ok s i b H) as (s' & -> & C). now apply HP. Qed.
Lemma positions_spec s : positions dim s = positions_of dim s.
Proof. reflexivity. Qed.
Lemma in_positions s p : In p (positions dim s) <-> p < dim /\ coord s p = true.
Proof. unfold positions. rewrite filter_In, in_seq. unfold bit, coord. intuition lia. Qed.
Lemma positions_sorted s i j p q : i < j -> nth_error (positions dim s) i = Some p -> nth_error (positions dim s) j = Some q -> p < q.
Proof.
  unfold positions. generalize 0. revert i j. induction dim as [|d IH]; intros i j from L A B.
  - destruct i; discriminate.
  - cbn [seq filter] in A, B. destruct (bit s from).
    + destruct j as [|j]; [lia|]. destruct i as [|i].
      * injection A as <-. cbn [nth_error] in B. apply nth_error_In, filter_In in B as [B _]. apply in_seq in B. lia.
      * apply (IH i j (S from)); auto; lia.
    + apply (IH i j (S from)); auto.
Qed.

Lemma gives_each {A S} (I : nat -> S -> Prop) (l : list A) body (s : S) (Q : S -> Prop) (E : err -> Prop) : I 0 s ->
  (forall i x s, nth_error l i = Some x -> I i s -> gives (body x s) (I (Datatypes.S i)) E) ->
  (forall s, I (length l) s -> Q s) -> gives (each l body s) Q E.
Proof.
  intros H0 HS HQ. revert I s H0 HS HQ. induction l as [|x l IH]; intros I s H0 HS HQ; cbn [each]; [now apply HQ|].
  eapply gives_bind; [apply (HS 0 x s eq_refl H0)|]. intros s' H'.
  apply (IH (fun i => I (Datatypes.S i))); auto.
Qed.
End Dim.
