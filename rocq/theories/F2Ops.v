(** Operations on vectors and matrices over the field with two elements: proofs *)

From Coq Require Import List Arith NArith ZArith Lia Bool.
From Verif Require Import VecModel VecProofs RunModel RunProofs F2Model F2Spec F2Basics F2Proofs F2Solve F2Kernel F2Section.
Import ListNotations.
Open Scope nat_scope.

Lemma ltb_S i j : i <> j -> (i <? S j) = (i <? j).
Proof. intros N. destruct (Nat.ltb_spec i j), (Nat.ltb_spec i (S j)); auto; lia. Qed.
Lemma ltb_self i : (i <? S i) = true.
Proof. apply Nat.ltb_lt. lia. Qed.

Lemma Zrem_2 x : negb (Z.rem x 2 =? 0)%Z = Z.odd x.
Proof.
  pose proof (Z.quot_rem' x 2) as E. pose proof (Z.rem_bound_abs x 2 ltac:(lia)) as B.
  rewrite E at 2. rewrite Z.add_comm, Z.odd_add_mul_2. assert (C : (Z.rem x 2 = -1 \/ Z.rem x 2 = 0 \/ Z.rem x 2 = 1)%Z) by lia.
  destruct C as [->|[->| ->]]; reflexivity.
Qed.

Section Dim.
Variable dim : nat.

(** *** vectors *)

Lemma bv_unit_ok n j : j < dim -> gives (bv_unit dim n j) (fun v => bsize v = n /\ forall i, coord (data v) i = (i =? j)) sure.
Proof.
  intros H. unfold bv_unit. destruct (assign_ok dim 0 j true H) as (s & -> & C). cbn. split; [auto|]. intros i. rewrite C, coord_0. now destruct (i =? j).
Qed.
Lemma bv_set_ok v i b : i < dim ->
  gives (bv_set dim v i b) (fun w => bsize w = bsize v /\ forall j, coord (data w) j = if j =? i then b else coord (data v) j) sure.
Proof. intros H. unfold bv_set. destruct (assign_ok dim (data v) i b H) as (s & -> & C). cbn. auto. Qed.
Lemma bv_flip_ok v i : i < dim ->
  gives (bv_flip dim v i) (fun w => bsize w = bsize v /\ forall j, coord (data w) j = xorb (j =? i) (coord (data v) j)) sure.
Proof.
  intros H. unfold bv_flip. rewrite test_ok by auto. cbn [bind]. eapply gives_mono; [now apply bv_set_ok|]. intros w [A B]. split; [auto|].
  intros j. rewrite B. destruct (Nat.eqb_spec j i) as [->|]; [now destruct (coord (data v) i)|now destruct (coord (data v) j)].
Qed.
Lemma bv_mod2_ok v : length v <= dim ->
  gives (bv_mod2 dim v) (fun w => sized (length v) w /\ forall i, i < length v -> coord (data w) i = Z.odd (nth i v 0%Z)) sure.
Proof.
  intros H. unfold bv_mod2. eapply gives_bind.
  { apply (gives_upto0 (fun j s => forall i, coord s i = (i <? j) && Z.odd (nth i v 0%Z))) with
      (Q := fun s => forall i, coord s i = (i <? length v) && Z.odd (nth i v 0%Z)); [intros; apply coord_0| |auto].
    intros j s Hj G. destruct (get_some v j Hj) as (x & Ex). unfold vget. rewrite Ex. cbn [bind]. apply gives_assign; [lia|].
    intros s' C i. rewrite C. destruct (Nat.eqb_spec i j) as [->|N].
    - rewrite ltb_self, (nth_error_nth _ _ _ Ex). cbn [andb]. apply Zrem_2.
    - now rewrite G, ltb_S. }
  intros s G. cbn [gives]. split; [split; [|auto]|].
  - intros i Hi. cbn [data]. rewrite G. apply Nat.ltb_ge in Hi. now rewrite Hi.
  - intros i Hi. cbn [data]. rewrite G. apply Nat.ltb_lt in Hi. now rewrite Hi.
Qed.
Lemma count_parity s n : Nat.odd (length (filter (bit s) (seq 0 n))) = sum2 n (coord s).
Proof.
  induction n as [|n IH]; [auto|]. rewrite seq_S, filter_app, app_length. cbn [sum2 filter plus]. rewrite <- IH, Nat.odd_add. f_equal.
  rewrite bit_coord. now destruct (coord s n).
Qed.
Lemma dot_ok n v w : n <= dim -> within n (data v) -> dot dim v w = scalar n (data v) (data w).
Proof.
  intros H W. unfold dot, bs_count, positions. rewrite count_parity. unfold scalar.
  replace dim with (n + (dim - n)) by lia. rewrite sum2_app. rewrite (sum2_zero (dim - n)).
  - rewrite xorb_false_r. apply sum2_ext. intros; apply coord_land.
  - intros i _. rewrite coord_land, W by lia. auto.
Qed.
Definition int_of (b : bool) : Z := if b then 1%Z else 0%Z.
Lemma bv_ints_ok v : bsize v <= dim ->
  gives (bv_ints dim v) (fun r => r = map (fun i => int_of (coord (data v) i)) (seq 0 (bsize v))) sure.
Proof.
  intros H. unfold bv_ints.
  apply (gives_downto (fun k r => length r = bsize v /\ forall i, k <= i < bsize v -> nth i r 0%Z = int_of (coord (data v) i))).
  - split; [apply repeat_length|lia].
  - intros k r Hk [L G]. rewrite test_ok by lia. cbn [bind]. apply gives_vput; [lia|]. intros w LW GW. split; [lia|].
    intros i Hi. rewrite (nth_put _ _ _ _ 0%Z GW). destruct (Nat.eqb_spec i k) as [->|]; [auto|]. apply G. lia.
  - intros r [L G]. apply nth_ext with (d := 0%Z) (d' := int_of (coord (data v) 0)); [now rewrite map_length, seq_length|]. intros i Hi.
    rewrite map_nth with (f := fun i => int_of (coord (data v) i)), seq_nth by lia. apply G. lia.
Qed.
Lemma lift_ok v : bsize v <= dim -> within (bsize v) (data v) ->
  gives (lift dim v) (fun r => r = map (fun i => int_of (coord (data v) i)) (seq 0 (bsize v))) sure.
Proof.
  intros H W. unfold lift. set (l := positions dim (data v)).
  apply (gives_each (fun k r => length r = bsize v /\ forall i, i < bsize v -> nth i r 0%Z = int_of (existsb (Nat.eqb i) (firstn k l)))).
  - split; [apply repeat_length|]. intros i Hi. apply nth_repeat.
  - intros k p r Ep [L G]. assert (Ip : In p l) by (eapply nth_error_In; exact Ep). apply in_positions in Ip as [_ Ip].
    apply (within_lt (bsize v)) in Ip; [|auto]. apply gives_vput; [lia|]. intros w LW GW. split; [lia|].
    intros i Hi. rewrite (nth_put _ _ _ _ 0%Z GW), (firstn_S _ _ _ Ep), existsb_app. cbn [existsb]. rewrite orb_false_r.
    destruct (Nat.eqb_spec i p) as [->|]; [now rewrite orb_true_r|]. rewrite orb_false_r. now apply G.
  - intros r [L G]. rewrite firstn_all in G. apply nth_ext with (d := 0%Z) (d' := int_of (coord (data v) 0)); [now rewrite map_length, seq_length|]. intros i Hi.
    rewrite map_nth with (f := fun i => int_of (coord (data v) i)), seq_nth by lia. rewrite G by lia. cbn [plus]. f_equal.
    apply eq_true_iff_eq. rewrite existsb_exists. split.
    + intros (p & Ip & E). apply Nat.eqb_eq in E. subst p. now apply in_positions in Ip.
    + intros C. exists i. rewrite Nat.eqb_refl. split; [|auto]. apply in_positions. split; [lia|auto].
Qed.
Lemma pushBack_ok n v b : n < dim -> sized n v ->
  gives (pushBack dim v b) (fun w => sized (S n) w /\ coord (data w) n = b /\ forall i, i < n -> coord (data w) i = coord (data v) i) sure.
Proof.
  intros H [W B]. unfold pushBack. rewrite B. destruct (assign_ok dim (data v) n b H) as (s & -> & C). cbn. split; [split|split].
  - intros i Hi. cbn [data]. rewrite C. destruct (Nat.eqb_spec i n); [lia|]. apply W. lia.
  - auto.
  - now rewrite C, Nat.eqb_refl.
  - intros i Hi. rewrite C. destruct (Nat.eqb_spec i n); [lia|auto].
Qed.

Lemma positions_S t j : positions_of (S j) t = positions_of j t ++ (if coord t j then [j] else []).
Proof. unfold positions_of. rewrite seq_S, filter_app. cbn. now destruct (coord t j). Qed.
Lemma positions_length t j : length (positions_of j t) <= j.
Proof. unfold positions_of. rewrite <- (seq_length j 0) at 2. generalize (seq 0 j). intros l. induction l as [|x l IH]; cbn; [lia|]. destruct (coord t x); cbn; lia. Qed.

Lemma bv_slice_ok v t : bsize v <= dim ->
  gives (bv_slice dim v t) (fun w => sized (length (positions_of (bsize v) t)) w /\
    forall k p, nth_error (positions_of (bsize v) t) k = Some p -> coord (data w) k = coord (data v) p) sure.
Proof.
  intros H. unfold bv_slice. eapply gives_bind.
  { apply (gives_upto0 (fun j '(s, c) => c = length (positions_of j t) /\
      (forall k p, nth_error (positions_of j t) k = Some p -> coord s k = coord (data v) p) /\
      forall i, c <= i -> coord s i = coord (data v) i)) with
      (Q := fun '(s, c) => c = length (positions_of (bsize v) t) /\
         (forall k p, nth_error (positions_of (bsize v) t) k = Some p -> coord s k = coord (data v) p)).
    - split; [auto|]. split; [intros [|k]; discriminate|auto].
    - intros j [s c] Hj (-> & G1 & G2). pose proof (positions_length t j) as PL. rewrite test_ok by lia. cbn [bind]. rewrite positions_S.
      destruct (coord t j); cbn [gives].
      + rewrite test_ok by lia. cbn [bind]. destruct (assign_ok dim s (length (positions_of j t)) (coord s j)) as (s' & -> & C); [lia|]. cbn [bind gives].
        rewrite app_length. cbn [length]. split; [lia|]. split.
        * intros k p Ek. destruct (Nat.lt_ge_cases k (length (positions_of j t))) as [L|L].
          -- rewrite nth_error_app1 in Ek by auto. rewrite C. destruct (Nat.eqb_spec k (length (positions_of j t))); [lia|]. now apply G1.
          -- assert (X : k < length (positions_of j t ++ [j])) by (apply nth_error_Some; congruence). rewrite app_length in X. cbn in X.
             assert (k = length (positions_of j t)) as -> by lia. rewrite nth_error_app2, Nat.sub_diag in Ek by auto. injection Ek as <-.
             rewrite C, Nat.eqb_refl. apply G2. lia.
        * intros i Hi. rewrite C. destruct (Nat.eqb_spec i (length (positions_of j t))); [lia|]. apply G2. lia.
      + rewrite app_nil_r. auto.
    - intros [s c] (A & B & _). auto. }
  intros [s c] [-> G]. cbn [gives]. split; [split; [|auto]|].
  - intros i Hi. cbn [data]. rewrite coord_land, coord_ones. apply Nat.ltb_ge in Hi. now rewrite Hi, andb_false_r.
  - intros k p Ek. cbn [data]. rewrite coord_land, coord_ones, (G k p Ek). replace (k <? _) with true; [apply andb_true_r|].
    symmetry. apply Nat.ltb_lt, nth_error_Some. congruence.
Qed.

Lemma bv_unslice_ok v t n : n <= dim -> within n t ->
  gives (bv_unslice dim v t n) (fun w => sized n w /\
    (forall k p, nth_error (positions_of n t) k = Some p -> coord (data w) p = coord (data v) k) /\
    forall p, coord t p = false -> coord (data w) p = false) sure.
Proof.
  intros H W. unfold bv_unslice. rewrite (positions_within dim n) by auto.
  assert (FT : forall p, In p (positions_of n t) <-> p < n /\ coord t p = true) by (intros p; apply (in_positions n)).
  assert (ND : NoDup (positions_of n t)) by (apply NoDup_filter, seq_NoDup). rewrite NoDup_nth_error in ND.
  set (f := positions_of n t) in *. eapply gives_bind.
  { apply (gives_each (fun i '(d, r) => d = N.shiftr (data v) (N.of_nat i) /\
      (forall k p, k < i -> nth_error f k = Some p -> coord r p = coord (data v) k) /\ forall p, ~ In p f -> coord r p = false)) with
      (Q := fun '(d, r) => (forall k p, nth_error f k = Some p -> coord r p = coord (data v) k) /\ forall p, ~ In p f -> coord r p = false).
    - split; [now rewrite N.shiftr_0_r|]. split; [lia|]. intros; apply coord_0.
    - intros i p [d r] Ep (-> & G1 & G2). assert (Ip : In p f) by (eapply nth_error_In; exact Ep). apply FT in Ip as [P1 P2].
      rewrite test_ok by lia. cbn [bind].
      destruct (assign_ok dim r p (coord (N.shiftr (data v) (N.of_nat i)) 0)) as (r' & -> & C); [lia|]. cbn [bind gives].
      split; [rewrite N.shiftr_shiftr; f_equal; lia|]. rewrite coord_shiftr in C. cbn [plus] in C. split.
      + intros k q Hk Eq. rewrite C. destruct (Nat.eqb_spec q p) as [->|N].
        * f_equal. apply ND; [apply nth_error_Some|]; congruence.
        * apply G1; auto. destruct (Nat.eq_dec k i) as [->|]; [congruence|lia].
      + intros q Iq. rewrite C. destruct (Nat.eqb_spec q p) as [->|N]; [|auto]. destruct Iq. apply FT. auto.
    - intros [d r] (_ & A & B). split; [|auto]. intros k p Ek. apply A; auto. apply nth_error_Some. congruence. }
  intros [d r] [A B]. cbn [gives]. split; [split; [|auto]|split; [auto|]].
  - intros i Hi. cbn [data]. apply B. rewrite FT. lia.
  - intros p Hp. apply B. rewrite FT. intros [_ X]. congruence.
Qed.

(** *** matrices *)

Lemma entry_get M j c i : get (cols M) j = Some c -> entry (cols M) i j = coord c i.
Proof. intros E. unfold entry. now rewrite (nth_error_nth _ _ _ E). Qed.
Lemma entry_out A i j : length A <= j -> entry A i j = false.
Proof. intros H. unfold entry. rewrite nth_overflow by auto. apply coord_0. Qed.

Lemma bm_test_ok M i j : i < dim -> j < ncols M -> bm_test dim M i j = Ok (entry (cols M) i j).
Proof.
  intros Hi Hj. unfold bm_test. destruct (get_some (cols M) j Hj) as (c & Ec). unfold vget. rewrite Ec. cbn [bind]. rewrite test_ok by auto.
  now rewrite (entry_get _ _ _ _ Ec).
Qed.
Lemma bm_set_ok M i j b : i < dim -> j < ncols M ->
  gives (bm_set dim M i j b) (fun K => rows K = rows M /\ ncols K = ncols M /\
    forall k l, entry (cols K) k l = if (k =? i) && (l =? j) then b else entry (cols M) k l) sure.
Proof.
  intros Hi Hj. unfold bm_set. destruct (get_some (cols M) j Hj) as (c & Ec). unfold vget. rewrite Ec. cbn [bind].
  destruct (assign_ok dim c i b Hi) as (s & -> & C). cbn [bind].
  eapply gives_bind; [apply (gives_vput (cols M) j s (fun w => length w = ncols M /\ forall l, nth l w 0%N = if l =? j then s else nth l (cols M) 0%N)); [auto|]|].
  { intros w L G. split; [exact L|]. now apply nth_put. }
  intros w [L G]. cbn [gives rows]. split; [auto|]. split; [exact L|]. intros k l. unfold entry. cbn [cols]. rewrite G.
  destruct (Nat.eqb_spec l j) as [->|]; [|now rewrite andb_false_r]. rewrite andb_true_r, C. destruct (k =? i); [auto|]. f_equal. symmetry. now apply nth_error_nth.
Qed.
Lemma zero_entry m n i j : entry (cols (bm_zero m n)) i j = false.
Proof. unfold entry, bm_zero. cbn [cols]. rewrite nth_repeat. apply coord_0. Qed.
Lemma matrix_from_entries m n M : ncols M = n -> (forall i j, m <= i -> entry (cols M) i j = false) -> is_matrix m n (cols M).
Proof.
  intros L H. split; [auto|]. intros c I i Hi. apply In_nth with (d := 0%N) in I as (j & Hj & <-). now apply H.
Qed.
(** a matrix written entry by entry *)
Lemma fill_ok m n (e : nat -> nat -> bool) (body : nat -> nat -> bm -> res bm) : m <= dim ->
  (forall i j M, i < m -> j < n -> ncols M = n -> body i j M = bm_set dim M i j (e i j)) ->
  gives (upto m 0 (fun i M => upto n 0 (fun j M => body i j M) M) (bm_zero m n)) (fun M => rows M = m /\ is_matrix m n (cols M) /\
    forall i j, i < m -> j < n -> entry (cols M) i j = e i j) sure.
Proof.
  intros Hm HB. eapply gives_mono.
  - apply (gives_upto0 (fun i M => rows M = m /\ ncols M = n /\ forall k l, entry (cols M) k l = (k <? i) && (l <? n) && e k l)) with
      (Q := fun M => rows M = m /\ ncols M = n /\ forall k l, entry (cols M) k l = (k <? m) && (l <? n) && e k l); [| |auto].
    + split; [auto|]. split; [apply repeat_length|]. intros; apply zero_entry.
    + intros i M Hi (R & C & G).
      apply (gives_upto0 (fun j M => rows M = m /\ ncols M = n /\ forall k l, entry (cols M) k l =
         ((k <? i) && (l <? n) || (k =? i) && (l <? j)) && e k l)).
      * split; [auto|]. split; [auto|]. intros k l. rewrite G. replace (l <? 0) with false by auto. now rewrite andb_false_r, orb_false_r.
      * intros j M1 Hj (R1 & C1 & G1). rewrite HB by auto. eapply gives_mono; [apply bm_set_ok; lia|]. intros K (R2 & C2 & G2).
        split; [lia|]. split; [lia|]. intros k l. rewrite G2, G1.
        destruct (Nat.eqb_spec k i) as [->|N]; cbn [andb]; [|rewrite !orb_false_r; auto].
        destruct (Nat.eqb_spec l j) as [->|N]; [now rewrite ltb_self, orb_true_r|]. now rewrite ltb_S.
      * intros M2 (R2 & C2 & G2). split; [auto|]. split; [auto|]. intros k l. rewrite G2. f_equal.
        destruct (Nat.eqb_spec k i) as [->|N]; cbn [andb]; [rewrite ltb_self, Nat.ltb_irrefl; auto|]. now rewrite orb_false_r, ltb_S.
  - intros M (R & C & G). split; [auto|]. split.
    + apply matrix_from_entries; auto. intros i j Hi. rewrite G. apply Nat.ltb_ge in Hi. now rewrite Hi.
    + intros i j Hi Hj. rewrite G. apply Nat.ltb_lt in Hi, Hj. now rewrite Hi, Hj.
Qed.
Lemma Zland_1 x : negb (Z.land x 1 =? 0)%Z = Z.odd x.
Proof.
  rewrite <- Z.bit0_odd. change 1%Z with (Z.ones 1). rewrite Z.land_ones by lia. change (2 ^ 1)%Z with 2%Z. rewrite Z.bit0_odd.
  rewrite Zmod_odd. now destruct (Z.odd x).
Qed.
Theorem bm_mod2_ok m n e : m <= dim -> gives (bm_mod2 dim m n e) (fun M => rows M = m /\ is_matrix m n (cols M) /\
    forall i j, i < m -> j < n -> entry (cols M) i j = Z.odd (e i j)) sure.
Proof. intros H. apply (fill_ok m n (fun i j => Z.odd (e i j))); auto. intros i j M _ _ _. now rewrite Zland_1. Qed.
Theorem bm_identity_ok n : n <= dim -> gives (bm_identity dim n) (fun M => rows M = n /\ is_identity n (cols M)) sure.
Proof.
  intros H. unfold bm_identity. eapply gives_mono.
  - apply (gives_upto0 (fun i M => rows M = n /\ ncols M = n /\ forall k l, entry (cols M) k l = (k <? i) && (k =? l))) with
      (Q := fun M => rows M = n /\ ncols M = n /\ forall k l, entry (cols M) k l = (k <? n) && (k =? l)); [| |auto].
    + split; [auto|]. split; [apply repeat_length|]. intros; apply zero_entry.
    + intros i M Hi (R & C & G). eapply gives_mono; [apply bm_set_ok; lia|]. intros K (R2 & C2 & G2). split; [lia|]. split; [lia|].
      intros k l. rewrite G2, G. destruct (Nat.eqb_spec k i) as [->|N]; cbn [andb]; [|now rewrite ltb_S].
      rewrite ltb_self, Nat.ltb_irrefl. cbn [andb]. destruct (Nat.eqb_spec l i), (Nat.eqb_spec i l); auto; lia.
  - intros M (R & C & G). split; [auto|]. split; [auto|]. intros i j Hj. rewrite G. destruct (Nat.eqb_spec i j) as [->|]; [|apply andb_false_r].
    apply Nat.ltb_lt in Hj. now rewrite Hj.
Qed.
Theorem bm_transpose_ok M : rows M <= dim -> ncols M <= dim -> gives (bm_transpose dim M) (fun T => rows T = ncols M /\ is_matrix (ncols M) (rows M) (cols T) /\
    forall i j, i < ncols M -> j < rows M -> entry (cols T) i j = entry (cols M) j i) sure.
Proof.
  intros Hm Hn. set (m := rows M) in *. set (n := ncols M) in *. unfold bm_transpose. fold m n. eapply gives_mono.
  - apply (gives_upto0 (fun i T => rows T = n /\ ncols T = m /\ forall k l, entry (cols T) k l = (l <? i) && (k <? n) && entry (cols M) l k)) with
      (Q := fun T => rows T = n /\ ncols T = m /\ forall k l, entry (cols T) k l = (l <? m) && (k <? n) && entry (cols M) l k); [| |auto].
    + split; [auto|]. split; [apply repeat_length|]. intros; apply zero_entry.
    + intros i T Hi (R & C & G).
      apply (gives_upto0 (fun j T => rows T = n /\ ncols T = m /\ forall k l, entry (cols T) k l =
         ((l <? i) && (k <? n) || (l =? i) && (k <? j)) && entry (cols M) l k)).
      * split; [auto|]. split; [auto|]. intros k l. rewrite G. replace (k <? 0) with false by auto. now rewrite andb_false_r, orb_false_r.
      * intros j M1 Hj (R1 & C1 & G1). rewrite bm_test_ok by (fold n; lia). cbn [bind].
        eapply gives_mono; [apply bm_set_ok; lia|]. intros K (R2 & C2 & G2).
        split; [lia|]. split; [lia|]. intros k l. rewrite G2, G1.
        destruct (Nat.eqb_spec l i) as [->|N]; cbn [andb]; [|rewrite !andb_false_r, !orb_false_r; auto]. rewrite andb_true_r.
        destruct (Nat.eqb_spec k j) as [->|N]; [now rewrite ltb_self, orb_true_r|]. now rewrite ltb_S.
      * intros M2 (R2 & C2 & G2). split; [auto|]. split; [auto|]. intros k l. rewrite G2. f_equal.
        destruct (Nat.eqb_spec l i) as [->|N]; cbn [andb]; [rewrite ltb_self, Nat.ltb_irrefl; auto|]. now rewrite orb_false_r, ltb_S.
  - intros T (R & C & G). split; [auto|]. split.
    + apply matrix_from_entries; auto. intros i j Hi. rewrite G. apply Nat.ltb_ge in Hi. now rewrite Hi, andb_false_r.
    + intros i j Hi Hj. rewrite G. apply Nat.ltb_lt in Hi, Hj. now rewrite Hi, Hj.
Qed.
Lemma bm_apply_ok M v : ncols M <= dim -> bm_apply dim M v = Ok (mk_bv (image_of (cols M) (data v)) (rows M)).
Proof. intros H. unfold bm_apply. now rewrite set_combination_ok. Qed.
Lemma bm_right_act_ok M v : rows M <= dim -> ncols M <= dim -> within (rows M) (data v) ->
  gives (bm_right_act dim M v) (fun w => sized (ncols M) w /\
    forall j, j < ncols M -> coord (data w) j = sum2 (rows M) (fun i => coord (data v) i && entry (cols M) i j)) sure.
Proof.
  intros Hm Hn W. unfold bm_right_act. eapply gives_mono.
  - apply (gives_upto0 (fun j w => bsize w = ncols M /\ forall k, coord (data w) k = (k <? j) && sum2 (rows M) (fun i => coord (data v) i && entry (cols M) i k))) with
      (Q := fun w => bsize w = ncols M /\ forall k, coord (data w) k = (k <? ncols M) && sum2 (rows M) (fun i => coord (data v) i && entry (cols M) i k)); [| |auto].
    + split; [auto|]. intros; apply coord_0.
    + intros j w Hj [B G]. unfold bm_column. destruct (get_some (cols M) j Hj) as (c & Ec). unfold vget. rewrite Ec. cbn [bind].
      eapply gives_mono; [apply bv_set_ok; lia|]. intros u [B2 G2]. split; [lia|]. intros k. rewrite G2. destruct (Nat.eqb_spec k j) as [->|N]; [|now rewrite ltb_S].
      rewrite ltb_self. cbn [andb]. rewrite (dot_ok (rows M)) by auto. apply sum2_ext. intros i _. cbn [data]. now rewrite (entry_get _ _ _ _ Ec).
  - intros w [B G]. split; [split; [|auto]|].
    + intros k Hk. rewrite G. apply Nat.ltb_ge in Hk. now rewrite Hk.
    + intros j Hj. rewrite G. apply Nat.ltb_lt in Hj. now rewrite Hj.
Qed.
Theorem bm_add_ok M K : ncols K = ncols M -> gives (bm_add M K) (fun S => rows S = rows M /\ ncols S = ncols M /\
    forall i j, entry (cols S) i j = xorb (entry (cols M) i j) (entry (cols K) i j)) sure.
Proof.
  intros E. unfold bm_add. eapply gives_bind.
  { apply (gives_upto0 (fun j cs => length cs = ncols M /\ forall i k, entry cs i k = if k <? j then xorb (entry (cols M) i k) (entry (cols K) i k) else entry (cols M) i k)) with
      (Q := fun cs => length cs = ncols M /\ forall i k, entry cs i k = if k <? ncols M then xorb (entry (cols M) i k) (entry (cols K) i k) else entry (cols M) i k); [auto| |auto].
    intros j cs Hj [L G].
    eapply gives_bind; [apply (gives_vget _ _ (nth j cs 0%N) (fun y => y = nth j cs 0%N)); [apply get_nth; lia|auto]|]. intros ? ->.
    eapply gives_bind; [apply (gives_vget _ _ (nth j (cols K) 0%N) (fun y => y = nth j (cols K) 0%N)); [apply get_nth; unfold ncols in *; lia|auto]|]. intros ? ->.
    apply gives_vput; [lia|]. intros w LW GW. split; [lia|]. intros i k. unfold entry at 1. rewrite (nth_put _ _ _ _ 0%N GW).
    destruct (Nat.eqb_spec k j) as [->|N]; [|rewrite ltb_S by auto; apply G]. rewrite ltb_self, coord_lxor. f_equal.
    change (entry cs i j = entry (cols M) i j). now rewrite G, Nat.ltb_irrefl. }
  intros cs [L G]. cbn [gives rows cols]. split; [auto|]. split; [exact L|]. intros i j. cbn [cols]. rewrite G.
  destruct (Nat.ltb_spec j (ncols M)) as [|H]; [auto|]. rewrite (entry_out (cols K)) by (unfold ncols in *; lia). now rewrite xorb_false_r.
Qed.
Theorem bm_mul_ok M K : ncols M <= dim -> gives (bm_mul dim M K) (fun P => rows P = rows M /\ is_product (cols M) (cols K) (cols P)) sure.
Proof.
  intros H. unfold bm_mul. eapply gives_bind.
  { apply (gives_upto0 (fun j cs => length cs = ncols K /\ forall k, k < j -> nth k cs 0%N = image_of (cols M) (nth k (cols K) 0%N))) with
      (Q := fun cs => length cs = ncols K /\ forall k, k < ncols K -> nth k cs 0%N = image_of (cols M) (nth k (cols K) 0%N)); [| |auto].
    - split; [apply repeat_length|lia].
    - intros j cs Hj [L G].
      eapply gives_bind; [apply (gives_vget _ _ (nth j (cols K) 0%N) (fun y => y = nth j (cols K) 0%N)); [apply get_nth; exact Hj|auto]|]. intros ? ->.
      rewrite set_combination_ok by exact H. cbn [bind]. apply gives_vput; [lia|]. intros w LW GW. split; [lia|]. intros k Hk.
      rewrite (nth_put _ _ _ _ 0%N GW). destruct (Nat.eqb_spec k j) as [->|]; [auto|]. apply G. lia. }
  intros cs [L G]. cbn [gives rows cols]. split; [auto|]. split; [exact L|]. intros i j.
  destruct (Nat.lt_ge_cases j (ncols K)) as [Hj|Hj].
  - unfold entry at 1. rewrite G by auto. apply image_coord.
  - rewrite (entry_out cs) by (cbn; lia). symmetry. apply sum2_zero. intros k _. rewrite (entry_out (cols K)) by auto. apply andb_false_r.
Qed.
Lemma bm_addToColumn_ok M j v : j < ncols M -> gives (bm_addToColumn M j v) (fun K => rows K = rows M /\ ncols K = ncols M /\
   forall i l, entry (cols K) i l = xorb (entry (cols M) i l) ((l =? j) && coord (data v) i)) sure.
Proof.
  intros Hj. unfold bm_addToColumn.
  eapply gives_bind; [apply (gives_vget _ _ (nth j (cols M) 0%N) (fun y => y = nth j (cols M) 0%N)); [apply get_nth; exact Hj|auto]|]. intros ? ->.
  eapply gives_bind; [apply (gives_vput (cols M) j _ (fun w => length w = ncols M /\ forall l, nth l w 0%N = if l =? j then N.lxor (nth j (cols M) 0%N) (data v) else nth l (cols M) 0%N)); [auto|]|].
  { intros w L G. split; [exact L|]. now apply nth_put. }
  intros w [L G]. cbn [gives rows]. split; [auto|]. split; [exact L|]. intros i l. unfold entry. cbn [cols]. rewrite G.
  destruct (Nat.eqb_spec l j) as [->|]; cbn [andb]; [apply coord_lxor|now rewrite xorb_false_r].
Qed.
Lemma bm_addColumn_ok M c i j : entry (cols (bm_addColumn M c)) i j = if j =? ncols M then coord c i else entry (cols M) i j.
Proof.
  unfold entry, bm_addColumn, ncols. cbn [cols]. destruct (Nat.eqb_spec j (length (cols M))) as [->|N].
  - now rewrite app_nth2, Nat.sub_diag by auto.
  - destruct (Nat.lt_ge_cases j (length (cols M))).
    + now rewrite app_nth1. + rewrite !nth_overflow; auto. rewrite app_length. cbn. lia.
Qed.
Lemma bm_resize_ok M m n : rows (bm_resize M m n) = m /\ ncols (bm_resize M m n) = n /\
  forall i j, entry (cols (bm_resize M m n)) i j = (j <? n) && entry (cols M) i j.
Proof.
  unfold bm_resize, ncols. cbn [rows cols]. split; [auto|]. split; [rewrite app_length, firstn_length, repeat_length; lia|].
  intros i j. unfold entry. destruct (Nat.ltb_spec j n) as [H|H]; cbn [andb].
  - destruct (Nat.lt_ge_cases j (length (cols M))) as [H2|H2].
    + rewrite app_nth1 by (rewrite firstn_length; lia). f_equal. rewrite <- (firstn_skipn n (cols M)) at 2. rewrite app_nth1; [auto|rewrite firstn_length; lia].
    + rewrite app_nth2 by (rewrite firstn_length; lia). rewrite nth_repeat, (nth_overflow (cols M)); auto.
  - rewrite nth_overflow; [apply coord_0|]. rewrite app_length, firstn_length, repeat_length. lia.
Qed.

(** initBasis *)
Lemma initBasis_ok n : n <= dim -> gives (initBasis dim n) (fun b => Forall (sized n) b /\ is_identity n (D b)) sure.
Proof.
  intros Hn. unfold initBasis. eapply gives_mono.
  - apply (gives_upto0 (fun k b => length b = n /\ forall j, j < n -> bsize (nth j b (bv_zero 0)) = n /\
        forall i, coord (data (nth j b (bv_zero 0))) i = (j <? k) && (i =? j))) with
      (Q := fun b => length b = n /\ forall j, j < n -> bsize (nth j b (bv_zero 0)) = n /\
        forall i, coord (data (nth j b (bv_zero 0))) i = (j <? n) && (i =? j)); [| |auto].
    + split; [apply repeat_length|]. intros j Hj. rewrite (nth_indep _ _ (bv_zero n)) by (rewrite repeat_length; auto). rewrite nth_repeat.
      split; [auto|]. intros i. apply coord_0.
    + intros k b Hk [L G].
      eapply gives_bind; [apply (gives_vget _ _ (nth k b (bv_zero 0)) (fun y => y = nth k b (bv_zero 0))); [apply get_nth; lia|auto]|]. intros ? ->.
      eapply gives_bind; [apply bv_set_ok; lia|]. intros w [BW CW].
      apply gives_vput; [lia|]. intros u LU GU. split; [lia|]. intros j Hj. rewrite (nth_put _ _ _ _ (bv_zero 0) GU).
      destruct (G k Hk) as [G1 G2]. destruct (Nat.eqb_spec j k) as [->|N].
      * split; [lia|]. intros i. rewrite CW, G2, ltb_self, Nat.ltb_irrefl. now destruct (i =? k).
      * destruct (G j Hj) as [G3 G4]. split; [auto|]. intros i. now rewrite G4, ltb_S.
  - intros b [L G].
    assert (C : forall j i, j < n -> coord (data (nth j b (bv_zero 0))) i = (i =? j)).
    { intros j i Hj. destruct (G j Hj) as [_ X]. rewrite X. apply Nat.ltb_lt in Hj. now rewrite Hj. }
    split.
    + apply Forall_forall. intros x I. apply In_nth with (d := bv_zero 0) in I as (j & Hj & <-). rewrite L in Hj. split; [|now apply G].
      intros i Hi. rewrite C by auto. apply Nat.eqb_neq. lia.
    + split; [now rewrite map_length|]. intros i j Hj. unfold entry. change 0%N with (data (bv_zero 0)). rewrite map_nth. now apply C.
Qed.
End Dim.

(** *** what a generalised inverse is when the columns are independent, or span everything *)

Lemma coord_of_list n (c : nat -> bool) : exists x, within n x /\ forall j, j < n -> coord x j = c j.
Proof.
  induction n as [|k (x & W & Hx)]; [exists 0%N; split; [apply within_0|lia]|].
  exists (if c k then N.setbit x (N.of_nat k) else N.clearbit x (N.of_nat k)). split.
  - intros i Hi. destruct (c k); [rewrite coord_setbit|rewrite coord_clearbit]; rewrite W by lia; auto. destruct (Nat.eqb_spec i k); [lia|auto].
  - intros j Hj. destruct (c k) eqn:E; [rewrite coord_setbit|rewrite coord_clearbit]; destruct (Nat.eqb_spec j k) as [->|N]; cbn; auto.
    + apply Hx. lia. + now rewrite andb_false_r. + rewrite andb_true_r. apply Hx. lia.
Qed.
Lemma injective_image n A x y : length A = n -> independent A -> within n x -> within n y -> image_of A x = image_of A y -> x = y.
Proof.
  intros L I WX WY E. apply (within_ext n); auto. intros i Hi.
  assert (Z : lincomb (fun i => xorb (coord x i) (coord y i)) A = 0%N).
  { rewrite lincomb_xor. unfold image_of in E. rewrite E. apply N.lxor_nilpotent. }
  pose proof (I _ Z i ltac:(lia)) as X. cbv beta in X. destruct (coord x i), (coord y i); auto; discriminate.
Qed.
Lemma left_inverse m n A B : is_matrix m n A -> is_matrix n m B -> independent A ->
  (forall x, in_span A x -> image_of A (image_of B x) = x) ->
  forall x, within n x -> image_of B (image_of A x) = x.
Proof.
  intros [LA WA] [LB WB] I H x WX. apply (injective_image n A); auto.
  - apply (span_within n B); [auto|]. eexists. reflexivity.
  - apply H. eexists. reflexivity.
Qed.
