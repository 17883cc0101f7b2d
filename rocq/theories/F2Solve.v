(** Combinations, linear systems, kernels and images over the field with two elements: proofs *)

From Coq Require Import List Arith NArith ZArith Lia Bool.
From Verif Require Import VecModel VecProofs RunModel RunProofs F2Model F2Spec F2Basics F2Proofs.
Import ListNotations.
Open Scope nat_scope.

Lemma firstn_S {A} (l : list A) i x : nth_error l i = Some x -> firstn (S i) l = firstn i l ++ [x].
Proof. revert i. induction l as [|y l IH]; intros [|i] E; try discriminate; cbn in *; [congruence|]. now rewrite IH. Qed.
Lemma length_firstn_lt {A} (l : list A) i : i <= length l -> length (firstn i l) = i.
Proof. intros H. rewrite firstn_length. lia. Qed.
Lemma lincomb_firstn_S c b i x : nth_error b i = Some x ->
  lincomb c (firstn (S i) b) = N.lxor (lincomb c (firstn i b)) (if c i then x else 0%N).
Proof.
  intros E. assert (i < length b) by (apply nth_error_Some; congruence).
  rewrite (firstn_S _ _ _ E), lincomb_app, length_firstn_lt by lia. cbn [lincomb]. rewrite Nat.add_0_r, N.lxor_0_r. auto.
Qed.

Section Dim.
Variable dim : nat.

(** bitvector.cpp:465-477, 486-495 *)
Lemma set_combination_ok b e : length b <= dim -> set_combination dim b e = Ok (lincomb (coord e) b).
Proof.
  intros L. unfold set_combination.
  assert (gives (upto (length b) 0 (fun i r => run c <- test dim e i; if c : bool then run x <- vget b i; Ok (N.lxor r x) else Ok r) 0%N)
    (fun r => r = lincomb (coord e) b) sure) as H.
  { apply (gives_upto0 (fun i r => r = lincomb (coord e) (firstn i b))); [auto| |intros r ->; now rewrite firstn_all].
    intros i r Hi ->. destruct (get_some b i Hi) as (x & Ex). rewrite test_ok by lia. cbn [bind].
    rewrite (lincomb_firstn_S _ _ _ _ Ex). destruct (coord e i).
    - eapply gives_bind; [apply (gives_vget _ _ x (fun y => y = x)); auto|]. intros ? ->. reflexivity.
    - cbn. now rewrite N.lxor_0_r. }
  destruct (upto _ _ _ _); [now rewrite H|destruct H].
Qed.
Lemma combination_ok b n e : length b <= dim -> combination dim b n e = Ok (mk_bv (lincomb (coord e) (D b)) n).
Proof.
  intros L. unfold combination.
  assert (gives (upto (length b) 0 (fun i r => run c <- test dim e i; if c : bool then run x <- vget b i; Ok (bv_add r x) else Ok r) (bv_zero n))
    (fun r => r = mk_bv (lincomb (coord e) (D b)) n) sure) as H.
  { apply (gives_upto0 (fun i r => r = mk_bv (lincomb (coord e) (firstn i (D b))) n)).
    - auto.
    - intros i r Hi ->. destruct (get_some b i Hi) as (x & Ex). rewrite test_ok by lia. cbn [bind].
      rewrite (lincomb_firstn_S _ _ _ _ (get_D _ _ _ Ex)). destruct (coord e i).
      + eapply gives_bind; [apply (gives_vget _ _ x (fun y => y = x)); auto|]. intros ? ->. reflexivity.
      + cbn. now rewrite N.lxor_0_r.
    - intros r ->. now rewrite <- (map_length data b), firstn_all. }
  destruct (upto _ _ _ _); [now rewrite H|destruct H].
Qed.

(** *** linear equations *)

Lemma scalar_0 m x : scalar m 0 x = false.
Proof. apply sum2_zero. intros i _. now rewrite coord_0. Qed.
Lemma scalar_xor m a b x : scalar m (N.lxor a b) x = xorb (scalar m a x) (scalar m b x).
Proof.
  unfold scalar. rewrite <- sum2_xor. apply sum2_ext. intros i _. rewrite coord_lxor. destruct (coord a i), (coord b i), (coord x i); auto.
Qed.
Lemma scalar_xor_r m a x y : scalar m a (N.lxor x y) = xorb (scalar m a x) (scalar m a y).
Proof.
  unfold scalar. rewrite <- sum2_xor. apply sum2_ext. intros i _. rewrite coord_lxor. destruct (coord a i), (coord x i), (coord y i); auto.
Qed.
Lemma scalar_comm m a x : scalar m a x = scalar m x a.
Proof. apply sum2_ext. intros i _. apply andb_comm. Qed.

(** the vector with coordinate [z j] at position [f_j] and zero elsewhere *)
Definition placed (f : list nat) (z : nat -> bool) (x : N) : Prop :=
  (forall j p, nth_error f j = Some p -> coord x p = z j) /\ forall p, ~ In p f -> coord x p = false.
Lemma placed_scalar m a f z x : reduced a f -> (forall p, In p f -> p < m) -> placed f z x ->
  forall j v, nth_error a j = Some v -> scalar m v x = z j.
Proof.
  intros R FM [P1 P2] j v Ev.
  assert (Hj : j < length f). { rewrite <- (rd_length a f R). apply nth_error_Some. congruence. }
  pose proof (nth_nth_error f j 0 Hj) as Ef. unfold scalar. rewrite (sum2_single _ (nth j f 0)).
  - rewrite (rd_clear a f R j j v _ Ev Ef), Nat.eqb_refl. cbn [andb]. now apply P1.
  - apply FM. now apply nth_In.
  - intros i Hi N. destruct (in_dec Nat.eq_dec i f) as [I|I]; [|rewrite P2; auto; apply andb_false_r].
    apply In_nth_error in I as [k Ek]. rewrite (rd_clear a f R j k v i Ev Ek).
    destruct (Nat.eqb_spec j k) as [->|]; [|auto]. exfalso. apply N. apply nth_error_nth with (d := 0) in Ek. congruence.
Qed.

(** *** combination_exists *)

Lemma nodup_bound (f : list nat) m : NoDup f -> (forall p, In p f -> p < m) -> length f <= m.
Proof.
  intros N H. rewrite <- (seq_length m 0). apply NoDup_incl_length; auto. intros p I. apply in_seq. specialize (H p I). lia.
Qed.

(** the system of the rows of [b] below [i], with right hand side [rhs] *)
Definition row_of (b : list N) (i : nat) (x : N) : bool := coord (lincomb (coord x) b) i.
Definition sat_rows (b : list N) (rhs : N) (i : nat) (x : N) : Prop := forall k, k < i -> row_of b k x = coord rhs k.
Definition sat_eqs (m : nat) (a : list N) (rh : N) (x : N) : Prop :=
  forall j v, nth_error a j = Some v -> scalar m v x = coord rh j.

Lemma row_loop (b : list bv) i n : length b <= dim -> i < n -> n <= dim ->
  gives (upto (length b) 0 (fun j r => run bj <- vget b j; run y <- bv_test dim bj i; assign dim r j y) 0%N)
    (fun r => within (length b) r /\ forall j, j < length b -> coord r j = coord (nth j (D b) 0%N) i) sure.
Proof.
  intros L Hi Hn. eapply gives_mono.
  - apply (gives_upto0 (fun j r => forall k, coord r k = (k <? j) && coord (nth k (D b) 0%N) i)) with
      (Q := fun r => forall k, coord r k = (k <? length b) && coord (nth k (D b) 0%N) i); [intros k; now rewrite coord_0| |auto].
    intros j r Hj G. destruct (get_some b j Hj) as (x & Ex).
    eapply gives_bind; [apply (gives_vget _ _ x (fun y => y = x)); auto|]. intros ? ->.
    unfold bv_test. rewrite test_ok by lia. cbn [bind]. apply gives_assign; [lia|]. intros s C k. rewrite C, G.
    pose proof (get_D _ _ _ Ex) as ED. apply nth_error_nth with (d := 0%N) in ED.
    destruct (Nat.eqb_spec k j) as [->|N].
    + rewrite ED. replace (j <? S j) with true; [auto|]. symmetry. apply Nat.ltb_lt. lia.
    + f_equal. destruct (Nat.ltb_spec k j), (Nat.ltb_spec k (S j)); auto; lia.
  - intros r G. split.
    + intros k Hk. rewrite G. replace (k <? length b) with false; [auto|]. symmetry. apply Nat.ltb_ge. lia.
    + intros j Hj. rewrite G. apply Nat.ltb_lt in Hj. now rewrite Hj.
Qed.
Lemma row_scalar (b : list N) r i x : (forall j, j < length b -> coord r j = coord (nth j b 0%N) i) ->
  scalar (length b) r x = row_of b i x.
Proof.
  intros H. unfold row_of. rewrite coord_lincomb. apply sum2_ext. intros j Hj. rewrite H by auto. apply andb_comm.
Qed.

Lemma reduce_row m a f rh r x : m <= dim -> (forall v, In v a -> within m v) -> reduced a f -> within m r ->
  gives (upto (length f) 0 (fun j '(r, x) =>
              run p <- vget f j; run y <- test dim r p;
              if y : bool then run aj <- vget a j; run z <- test dim rh j; Ok (N.lxor r aj, xorb x z) else Ok (r, x)) (r, x))
    (fun '(r', x') => within m r' /\ (forall p, In p f -> coord r' p = false) /\
      forall u, sat_eqs m a rh u -> (scalar m r u = x <-> scalar m r' u = x')) sure.
Proof.
  intros Hm WA R WR.
  pose proof (reduced_triangular _ _ R) as T.
  assert (LF : length f <= m). { apply nodup_bound; [now apply (reduced_nodup a)|]. intros p. now apply (positions_lt m a). }
  apply (gives_upto0 (fun j '(r', x') => within m r' /\ (forall k p, k < j -> nth_error f k = Some p -> coord r' p = false) /\
      forall u, sat_eqs m a rh u -> (scalar m r u = x <-> scalar m r' u = x'))).
  - split; [auto|]. split; [intros; lia|tauto].
  - intros j [r' x'] Hj (W & Z & E).
    destruct (get_some f j) as (p & Ep); [lia|]. destruct (get_some a j) as (v & Ev); [rewrite (rd_length a f R); auto|].
    assert (Ip : In p f) by (eapply nth_error_In; exact Ep). assert (Hp : p < m) by now apply (positions_lt m a f).
    eapply gives_bind; [apply (gives_vget _ _ p (fun y => y = p)); auto|]. intros ? ->.
    rewrite test_ok by lia. cbn [bind].
    destruct (coord r' p) eqn:B.
    + eapply gives_bind; [apply (gives_vget _ _ v (fun y => y = v)); auto|]. intros ? ->.
      rewrite test_ok by lia. cbn [bind gives].
      split; [apply within_lxor; [auto|]; apply WA; eapply nth_error_In; exact Ev|]. split.
      * intros k q Hk Eq. rewrite coord_lxor. rewrite (rd_clear a f R j k v q Ev Eq). destruct (Nat.eqb_spec j k) as [<-|N].
        -- assert (q = p) by (unfold get in Ep; congruence). subst q. now rewrite B.
        -- rewrite (Z k q) by (auto; lia). auto.
      * intros u S. rewrite (E u S), scalar_xor, (S j v Ev). destruct (scalar m r' u), x', (coord rh j); cbn; intuition congruence.
    + cbn [gives]. split; [auto|]. split; [|auto]. intros k q Hk Eq. destruct (Nat.eq_dec k j) as [->|N].
      * assert (q = p) by (unfold get in Ep; congruence). now subst q.
      * apply (Z k q); auto; lia.
  - intros [r' x'] (W & Z & E). split; [auto|]. split; [|auto]. intros p I. apply In_nth_error in I as [k Ek].
    apply (Z k p); auto. apply nth_error_Some. congruence.
Qed.

Definition updN (r : N) (n : nat) (y : N) : N := if coord y n then N.lxor y r else y.
Lemma upd_rows m a f rh r x n : m <= dim -> (forall v, In v a -> within m v) -> reduced a f -> n < m -> length a < m ->
  gives (upto (length a) 0 (fun j '(a, rh) =>
                run aj <- vget a j; run y <- test dim aj n;
                if y : bool then
                  run a <- vput a j (N.lxor aj r); run z <- test dim rh j; run rh <- assign dim rh j (xorb z x); Ok (a, rh)
                else Ok (a, rh)) (a, rh))
    (fun '(a', rh') => a' = map (updN r n) a /\
       forall j v, nth_error a j = Some v -> coord rh' j = if coord v n then xorb (coord rh j) x else coord rh j) sure.
Proof.
  intros Hm WA R Hn LA.
  apply (gives_upto0 (fun i '(a', rh') => (forall j, get a' j = option_map (fun v => if j <? i then updN r n v else v) (get a j)) /\
     forall j v, nth_error a j = Some v -> coord rh' j = if (j <? i) && coord v n then xorb (coord rh j) x else coord rh j)).
  - split; [intros j; now destruct (get a j)|]. intros j v _. reflexivity.
  - intros i [a' rh'] Hi [G H]. destruct (get_some a i Hi) as (v & Ev). pose proof (G i) as Gi. rewrite Ev in Gi. cbn [option_map] in Gi.
    rewrite Nat.ltb_irrefl in Gi.
    assert (LT : forall j, j <> i -> (j <? S i) = (j <? i)) by (intros j N; destruct (Nat.ltb_spec j i), (Nat.ltb_spec j (S i)); auto; lia).
    assert (LT2 : (i <? S i) = true) by (apply Nat.ltb_lt; lia).
    eapply gives_bind; [apply (gives_vget _ _ v (fun y => y = v)); auto|]. intros ? ->. rewrite test_ok by lia. cbn [bind].
    destruct (coord v n) eqn:C.
    + eapply gives_bind.
      { apply (gives_vput a' i _ (fun a2 => forall j, get a2 j = if j =? i then Some (N.lxor v r) else get a' j)); [apply get_lt in Gi; auto|auto]. }
      intros a2 G2. rewrite test_ok by lia. cbn [bind].
      eapply gives_bind; [apply gives_assign with (P := fun s => forall j, coord s j = if j =? i then xorb (coord rh' i) x else coord rh' j); [lia|auto]|].
      intros rh2 H2. cbn [gives]. split.
      * intros j. rewrite G2. destruct (Nat.eqb_spec j i) as [->|N].
        -- rewrite Ev. cbn [option_map]. rewrite LT2. unfold updN. now rewrite C.
        -- rewrite G, LT by auto. auto.
      * intros j w Ew. rewrite H2. destruct (Nat.eqb_spec j i) as [->|N].
        -- assert (w = v) by (unfold get in Ev; congruence). subst w. rewrite LT2, C, (H i v Ew), Nat.ltb_irrefl. auto.
        -- rewrite LT by auto. auto.
    + cbn [gives]. split.
      * intros j. rewrite G. destruct (Nat.eq_dec j i) as [->|N].
        -- rewrite Ev. cbn [option_map]. rewrite LT2, Nat.ltb_irrefl. unfold updN. now rewrite C.
        -- now rewrite LT.
      * intros j w Ew. rewrite (H j w Ew). destruct (Nat.eq_dec j i) as [->|N]; [|now rewrite LT].
        assert (w = v) by (unfold get in Ev; congruence). subst w. now rewrite C, !andb_false_r.
  - intros [a' rh'] [G H]. split.
    + apply vec_ext_all. intros j. rewrite G. unfold get. rewrite nth_error_map.
      destruct (nth_error a j) eqn:E; cbn [option_map]; [|auto]. replace (j <? length a) with true; [auto|]. symmetry. apply Nat.ltb_lt, nth_error_Some. congruence.
    + intros j v Ev. rewrite (H j v Ev). replace (j <? length a) with true; [auto|]. symmetry. apply Nat.ltb_lt, nth_error_Some. congruence.
Qed.
Lemma reduced_snocN a f w p : reduced a f -> leads w p -> (forall q, In q f -> coord w q = false) ->
  reduced (map (updN w p) a ++ [w]) (f ++ [p]).
Proof.
  intros R HW Z. set (A := map (fun x => mk_bv x 0) a).
  assert (DA : D A = a) by (unfold A; rewrite map_map; cbn; apply map_id).
  pose proof (reduced_snoc A f (mk_bv w 0) p) as H. rewrite DA in H. specialize (H R HW Z).
  rewrite map_app in H. cbn [map data] in H.
  replace (D (map (upd (mk_bv w 0) p) A)) with (map (updN w p) a) in H; [exact H|].
  unfold A. rewrite !map_map. apply map_ext. intros x. unfold upd, updN. cbn. destruct (coord x p); auto.
Qed.

(** the state after [i] rows *)
Definition comb_inv (b : list N) (rhs : N) (i : nat) (st : option (list N * N * list nat)) : Prop :=
  match st with
  | None => forall x, ~ sat_rows b rhs i x
  | Some (a, rh, f) => (forall v, In v a -> within (length b) v) /\ reduced a f /\
      forall x, sat_rows b rhs i x <-> sat_eqs (length b) a rh x
  end.
Lemma sat_rows_S b rhs i x : sat_rows b rhs (S i) x <-> sat_rows b rhs i x /\ row_of b i x = coord rhs i.
Proof.
  unfold sat_rows. split.
  - intros H. split; [intros k Hk|]; apply H; lia.
  - intros [H E] k Hk. destruct (Nat.eq_dec k i) as [->|]; [auto|apply H; lia].
Qed.

Theorem combination_exists_ok n b rhs : n <= dim -> length b <= dim -> Forall (sized n) b -> sized n rhs ->
  gives (combination_exists dim b rhs) (fun o =>
    match o with
    | Some c => within (length b) c /\ lincomb (coord c) (D b) = data rhs
    | None => ~ in_span (D b) (data rhs)
    end) sure.
Proof.
  intros Hn Hm HB [HR _]. unfold combination_exists. destruct b as [|b0 b'] eqn:Eb.
  { cbn [gives]. unfold isZero. destruct (N.eqb_spec (data rhs) 0) as [E|E].
    - split; [apply within_0|now rewrite E].
    - intros H. apply span_nil in H. auto. }
  rewrite <- Eb in *. assert (B0 : bsize b0 = n). { rewrite Eb in HB. inversion HB as [|? ? X _]. apply X. } clear b' Eb. rewrite B0. clear B0 b0.
  set (m := length b) in *. assert (LD : length (D b) = m) by apply map_length.
  eapply gives_bind.
  { apply (gives_upto0 (comb_inv (D b) (data rhs))) with (Q := comb_inv (D b) (data rhs) n); [| |auto].
    - cbn. split; [tauto|]. split; [constructor; auto; intros [|i]; discriminate|]. intros x. split.
      + intros _ [|j]; discriminate. + intros _ k. lia.
    - intros i [[[a rh] f]|] Hi.
      2: { cbn. intros H x S. apply (H x). now apply sat_rows_S in S. }
      intros (WA & R & E). rewrite LD in WA, E.
      eapply gives_bind; [apply (row_loop b i n); auto|]. intros r [WR CR]. fold m in WR, CR.
      unfold bv_test. rewrite test_ok by lia. cbn [bind].
      eapply gives_bind; [apply (reduce_row m a f rh r (coord (data rhs) i)); auto|]. intros [r1 x1] (W1 & Z1 & E1).
      assert (EQ : forall x, sat_rows (D b) (data rhs) (S i) x <-> sat_eqs m a rh x /\ scalar m r1 x = x1).
      { intros x. rewrite sat_rows_S, E. rewrite <- (row_scalar (D b) r i x) by (rewrite LD; auto). rewrite LD.
        split; intros [A B]; (split; [auto|]); now apply E1. }
      destruct (N.eqb_spec r1 0) as [E0|E0]; cbn [negb].
      + subst r1. destruct x1; cbn [gives].
        * intros x S. apply EQ in S as [_ S]. now rewrite scalar_0 in S.
        * cbn. rewrite LD. split; [auto|]. split; [auto|]. intros x. rewrite EQ, scalar_0. tauto.
      + pose proof (firstBit_leads r1 E0) as HL. set (p := firstBit r1) in *. cbv zeta.
        assert (Hp : p < m) by (apply (within_lt m r1); [auto|apply HL]).
        pose proof (reduced_snocN a f r1 p R HL Z1) as R2.
        assert (W2 : forall v, In v (map (updN r1 p) a ++ [r1]) -> within m v).
        { intros v I. apply in_app_or in I as [I|[<-|[]]]; [|auto]. apply in_map_iff in I as (y & <- & I).
          unfold updN. destruct (coord y p); [apply within_lxor|]; auto. }
        assert (LA : length a < m).
        { assert (length (f ++ [p]) <= m) as X.
          { apply nodup_bound; [apply (reduced_nodup _ _ R2)|]. intros q. apply (positions_lt m _ _ q W2). now apply reduced_triangular. }
          rewrite app_length, <- (rd_length a f R) in X. cbn in X. lia. }
        eapply gives_bind; [apply (upd_rows m a f rh r1 x1 p); auto|]. intros [a' rh2] [-> H2]. rewrite map_length.
        eapply gives_bind; [apply gives_assign with (P := fun s => forall j, coord s j = if j =? length a then x1 else coord rh2 j); [lia|auto]|].
        intros rh3 H3. cbn [gives comb_inv]. rewrite LD. split; [auto|]. split; [auto|]. intros x. rewrite EQ. split.
        * intros [S1 S2] j v Ev. rewrite H3. destruct (Nat.eqb_spec j (length a)) as [->|N].
          -- rewrite nth_error_app2, map_length, Nat.sub_diag in Ev by (rewrite map_length; auto). injection Ev as <-. auto.
          -- assert (Hj : j < length (map (updN r1 p) a ++ [r1])) by (apply nth_error_Some; congruence). rewrite app_length, map_length in Hj. cbn in Hj.
             rewrite nth_error_app1 in Ev by (rewrite map_length; lia). rewrite nth_error_map in Ev.
             destruct (nth_error a j) as [y|] eqn:Ey; [|discriminate]. cbn in Ev. injection Ev as <-.
             rewrite (H2 j y Ey). unfold updN. destruct (coord y p); [rewrite scalar_xor, S2|]; now rewrite (S1 j y Ey).
        * intros S. assert (S2 : scalar m r1 x = x1).
          { rewrite (S (length a) r1); [rewrite H3, Nat.eqb_refl; auto|]. rewrite nth_error_app2, map_length, Nat.sub_diag by (rewrite map_length; auto). auto. }
          split; [|auto]. intros j v Ev. assert (Hj : j < length a) by (apply nth_error_Some; congruence).
          assert (Ev2 : nth_error (map (updN r1 p) a ++ [r1]) j = Some (updN r1 p v)).
          { rewrite nth_error_app1 by (rewrite map_length; auto). now apply map_nth_error. }
          pose proof (S j _ Ev2) as X. rewrite H3 in X. replace (j =? length a) with false in X by (symmetry; apply Nat.eqb_neq; lia).
          rewrite (H2 j v Ev) in X. unfold updN in X. destruct (coord v p); [|auto]. rewrite scalar_xor, S2 in X.
          destruct (scalar m v x), x1, (coord rh j); cbn in X; congruence. }
  intros [[[a rh] f]|]; cbn [comb_inv].
  - intros (WA & R & E). rewrite LD in WA, E.
    assert (FM : forall p, In p f -> p < m) by (intros p; apply (positions_lt m a); auto using reduced_triangular).
    assert (LF : length f <= m) by (apply nodup_bound; [now apply (reduced_nodup a)|auto]).
    eapply gives_bind.
    { apply (gives_upto0 (fun i c => (forall j p, j < i -> nth_error f j = Some p -> coord c p = coord rh j) /\ forall p, ~ In p f -> coord c p = false)) with
        (Q := fun c => placed f (coord rh) c).
      - split; [intros; lia|]. intros; apply coord_0.
      - intros i c Hi [C1 C2]. destruct (get_some f i Hi) as (p & Ep).
        assert (Ip : In p f) by (eapply nth_error_In; exact Ep). specialize (FM p Ip).
        eapply gives_bind; [apply (gives_vget _ _ p (fun y => y = p)); auto|]. intros ? ->.
        rewrite test_ok by lia. cbn [bind]. apply gives_assign; [lia|]. intros s CS. split.
        + intros j q Hj Eq. rewrite CS. destruct (Nat.eqb_spec q p) as [->|N].
          * assert (i = j) as ->; [|auto]. pose proof (reduced_nodup _ _ R) as N. rewrite NoDup_nth_error in N. apply N; auto. unfold get in Ep. congruence.
          * apply C1; auto. destruct (Nat.eq_dec j i) as [->|]; [|lia]. unfold get in Ep. congruence.
        + intros q Iq. rewrite CS. destruct (Nat.eqb_spec q p) as [->|N]; [tauto|auto].
      - intros c [C1 C2]. split; [|auto]. intros j p Ej. apply C1; auto. apply nth_error_Some. congruence. }
    intros c PC. cbn [gives].
    assert (WC : within m c).
    { intros p Hp. apply PC. intros I. specialize (FM p I). lia. }
    split; [auto|]. apply (within_ext n).
    + apply (span_within n (D b)); [now apply sized_D|]. now exists (coord c).
    + auto.
    + intros i Hi. apply (E c); [|auto]. intros j v Ev. now apply (placed_scalar m a f (coord rh) c R FM PC j v).
  - intros H [c Hc]. cbn [gives].
    (* a vector with these coefficients *)
    assert (exists x, forall j, j < m -> coord x j = c j) as (x & Hx).
    { clear. induction m as [|k (x & Hx)]; [exists 0%N; lia|].
      exists (if c k then N.setbit x (N.of_nat k) else N.clearbit x (N.of_nat k)). intros j Hj.
      destruct (c k) eqn:E; [rewrite coord_setbit|rewrite coord_clearbit]; destruct (Nat.eqb_spec j k) as [->|N]; cbn; auto.
      - apply Hx. lia. - now rewrite andb_false_r. - rewrite andb_true_r. apply Hx. lia. }
    apply (H x). intros k Hk. unfold row_of. rewrite <- Hc. f_equal. apply lincomb_ext. intros i Hi. apply Hx. lia.
Qed.
End Dim.
