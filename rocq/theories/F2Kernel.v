(** Linear systems, kernels and images over the field with two elements: proofs *)

From Coq Require Import List Arith NArith ZArith Lia Bool.
From Verif Require Import VecModel VecProofs RunModel RunProofs F2Model F2Spec F2Basics F2Proofs F2Solve.
Import ListNotations.
Open Scope nat_scope.

Lemma positions_within dim n s : n <= dim -> within n s -> positions dim s = positions_of n s.
Proof.
  intros H W. apply sorted_same.
  - apply positions_sorted.
  - apply (positions_sorted n).
  - intros p. rewrite <- (positions_spec n), !in_positions. split; intros [A B]; split; auto; [|lia]. now apply (within_lt n s).
Qed.
Lemma nth_error_eq {A} (l : list A) i x y : nth_error l i = Some x -> nth_error l i = Some y -> x = y.
Proof. congruence. Qed.

(** *** solvable *)

Lemma solves_0 n x : solves n x 0.
Proof. unfold solves. now rewrite scalar_0, coord_0. Qed.
Lemma solves_xor n x d e : solves n x d -> solves n x e -> solves n x (N.lxor d e).
Proof. unfold solves. intros A B. now rewrite scalar_xor, coord_lxor, A, B. Qed.
Lemma solves_span n x b : (forall e, In e b -> solves n x e) -> forall e, in_span b e -> solves n x e.
Proof. intros H. apply span_least; [apply solves_0|apply solves_xor|auto]. Qed.

Theorem solvable_ok dimeq dimsol n eqns sol : S n <= dimeq -> n <= dimsol -> eqns <> [] -> Forall (sized (S n)) eqns ->
  gives (solvable dimeq dimsol eqns sol) (fun o =>
    match o with
    | Some x => sized n x /\ forall e, In e eqns -> solves n (data x) (data e)
    | None => ~ exists x, forall e, In e eqns -> solves n x (data e)
    end) sure.
Proof.
  intros H1 H2 NE HE. unfold solvable. destruct eqns as [|e0 r0] eqn:Eq; [tauto|]. rewrite <- Eq in *.
  assert (B0 : bsize e0 = S n). { rewrite Eq in HE. inversion HE as [|? ? X _]. apply X. } clear Eq r0.
  eapply gives_bind; [now apply (Gauss_Jordan_ok dimeq (S n))|]. intros [t r] (WT & SR & RE & SP).
  cbv zeta. rewrite B0. replace (S n - 1) with n by lia. clear e0 B0.
  rewrite test_ok by lia. cbn [bind].
  pose proof (echelon_reduced _ _ RE) as R. rewrite (positions_within dimeq (S n) t) by auto.
  assert (PT : forall p, In p (positions_of (S n) t) -> p < S n /\ coord t p = true) by (intros p; apply (in_positions (S n))).
  assert (IFF : forall x, (forall e, In e eqns -> solves n x (data e)) <-> (forall e, In e (D r) -> solves n x e)).
  { intros x. split.
    - intros H e I. apply (solves_span n x (D eqns)); [|apply SP; now apply span_in].
      intros d J. apply in_map_iff in J as (y & <- & J). auto.
    - intros H e I. apply (solves_span n x (D r)); [auto|]. apply SP, span_in. now apply in_map. }
  destruct (coord t n) eqn:CT.
  - cbn [gives]. intros (x & Hx). rewrite IFF in Hx.
    assert (I : In n (positions_of (S n) t)) by (apply (in_positions (S n)); auto).
    apply In_nth_error in I as [k Ek].
    assert (Hk : k < length (D r)). { rewrite (rd_length _ _ R). apply nth_error_Some. congruence. }
    pose proof (nth_nth_error (D r) k 0%N Hk) as Er. destruct (rd_leads _ _ R k _ n Er Ek) as [A B].
    specialize (Hx _ (nth_In _ 0%N Hk)). unfold solves in Hx. rewrite A in Hx. unfold scalar in Hx. rewrite sum2_zero in Hx; [discriminate|].
    intros i Hi. now rewrite B.
  - set (f := positions_of (S n) t) in *.
    assert (FN : forall p, In p f -> p < n).
    { intros p I. destruct (PT p I) as [A B]. destruct (Nat.eq_dec p n) as [->|]; [congruence|lia]. }
    eapply gives_bind.
    { apply (gives_each (fun i '(s, c) => c = i /\ bsize s = n /\
        (forall j p, j < i -> nth_error f j = Some p -> coord (data s) p = coord (nth j (D r) 0%N) n) /\
        forall p, ~ In p f -> coord (data s) p = false)) with
        (Q := fun '(s, c) => bsize s = n /\ placed f (fun j => coord (nth j (D r) 0%N) n) (data s)).
      - split; [auto|]. split; [auto|]. split; [intros; lia|]. intros; apply coord_0.
      - intros i p [s c] Ep (-> & BS & C1 & C2). assert (Ip : In p f) by (eapply nth_error_In; exact Ep). pose proof (FN p Ip).
        assert (Hi : i < length r). { rewrite <- (map_length data r), (rd_length _ _ R). apply nth_error_Some. congruence. }
        destruct (get_some r i Hi) as (e & Ee).
        eapply gives_bind; [apply (gives_vget _ _ e (fun y => y = e)); auto|]. intros ? ->.
        unfold bv_test. rewrite test_ok by lia. cbn [bind]. unfold bv_set.
        destruct (assign_ok dimsol (data s) p (coord (data e) n)) as (s' & -> & CS); [lia|]. cbn [bind gives bsize data].
        pose proof (get_D _ _ _ Ee) as ED. apply nth_error_nth with (d := 0%N) in ED.
        split; [auto|]. split; [auto|]. split.
        + intros j q Hj Eq. rewrite CS. destruct (Nat.eqb_spec q p) as [->|N].
          * assert (i = j) as <-; [|now rewrite ED]. pose proof (reduced_nodup _ _ R) as N. rewrite NoDup_nth_error in N. apply N; [apply nth_error_Some|]; congruence.
          * apply C1; auto. destruct (Nat.eq_dec j i) as [->|]; [congruence|lia].
        + intros q Iq. rewrite CS. destruct (Nat.eqb_spec q p) as [->|N]; [tauto|auto].
      - intros [s c] (-> & BS & C1 & C2). split; [auto|]. split; [|auto]. intros j p Ej. apply C1; auto. apply nth_error_Some. congruence. }
    intros [s c] [BS PL]. cbn [gives]. split.
    + split; [|auto]. intros p Hp. apply PL. intros I. specialize (FN p I). lia.
    + apply IFF. intros e I. apply In_nth_error in I as [k Ek]. unfold solves.
      rewrite (placed_scalar n (D r) f _ (data s) R FN PL k e Ek). apply nth_error_nth with (d := 0%N) in Ek. now rewrite Ek.
Qed.

Section Dim.
Variable dim : nat.

(** *** image *)

Theorem bm_image_ok m M : m <= dim -> rows M = m -> is_matrix m (ncols M) (cols M) ->
  gives (bm_image dim M) (fun b => Forall (sized m) b /\ basis_of (in_span (cols M)) (D b)) sure.
Proof.
  intros Hm RM [_ WM]. unfold bm_image. eapply gives_bind.
  { apply (gives_upto0 (fun i '(b, f) => Forall (sized m) b /\ triangular (D b) f /\ forall u, in_span (D b) u <-> in_span (firstn i (cols M)) u)) with
     (Q := fun '(b, f) => Forall (sized m) b /\ triangular (D b) f /\ forall u, in_span (D b) u <-> in_span (cols M) u).
    - split; [auto|]. split; [|tauto]. constructor; auto; intros [|i]; discriminate.
    - intros i [b f] Hi (SB & T & SP). unfold bm_column. destruct (get_some (cols M) i Hi) as (c & Ec).
      unfold vget. rewrite Ec. cbn [bind].
      assert (SC : sized m (mk_bv c (rows M))) by (split; [apply WM; eapply nth_error_In; exact Ec|exact RM]).
      eapply gives_mono; [now apply (spanAdd_ok dim m)|]. intros [b' f'] (SB' & T' & SP'). split; [auto|]. split; [auto|].
      intros u. rewrite SP', (firstn_S _ _ _ Ec). now apply span_app_congr.
    - intros [b f] H. unfold ncols in H. now rewrite firstn_all in H. }
  intros [b f] (SB & T & SP). cbn [gives]. split; [auto|]. split; [now apply (triangular_independent _ f)|]. intros v. now rewrite SP.
Qed.

(** *** kernel *)

Lemma bm_row_ok M i : ncols M <= dim -> i < dim ->
  gives (bm_row dim M i) (fun v => sized (ncols M) v /\ forall j, j < ncols M -> coord (data v) j = entry (cols M) i j) sure.
Proof.
  intros Hn Hi. unfold bm_row. eapply gives_mono.
  - apply (gives_upto0 (fun j v => bsize v = ncols M /\ forall k, coord (data v) k = (k <? j) && entry (cols M) i k)) with
      (Q := fun v => bsize v = ncols M /\ forall k, coord (data v) k = (k <? ncols M) && entry (cols M) i k).
    + split; [auto|]. intros k. apply coord_0.
    + intros j v Hj [B G]. unfold bm_test. destruct (get_some (cols M) j Hj) as (c & Ec). unfold vget. rewrite Ec. cbn [bind].
      rewrite test_ok by auto. cbn [bind]. unfold bv_set. destruct (assign_ok dim (data v) j (coord c i)) as (s' & -> & CS); [lia|].
      cbn [bind gives data bsize]. split; [auto|]. intros k. rewrite CS. destruct (Nat.eqb_spec k j) as [->|N].
      * unfold entry. rewrite (nth_error_nth _ _ _ Ec). replace (j <? S j) with true; [auto|]. symmetry. apply Nat.ltb_lt. lia.
      * rewrite G. f_equal. destruct (Nat.ltb_spec k j), (Nat.ltb_spec k (S j)); auto; lia.
    + auto.
  - intros v [B G]. split; [split; [|auto]|].
    + intros k Hk. rewrite G. replace (k <? ncols M) with false; [auto|]. symmetry. apply Nat.ltb_ge. lia.
    + intros j Hj. rewrite G. apply Nat.ltb_lt in Hj. now rewrite Hj.
Qed.

(** the vector of the kernel with a 1 at [j] and 0 at the other positions outside [t] *)
Definition generator (n : nat) (f : list nat) (e : list N) (j : nat) (v : bv) : Prop :=
  sized n v /\ coord (data v) j = true /\
  (forall c p, nth_error f c = Some p -> coord (data v) p = coord (nth c e 0%N) j) /\
  forall p, p <> j -> ~ In p f -> coord (data v) p = false.
Lemma kernel_vector_ok n t r j : n <= dim -> within n t -> Forall (sized n) r -> reduced (D r) (positions_of n t) -> j < n -> coord t j = false ->
  gives (kernel_vector dim n t r j) (generator n (positions_of n t) (D r) j) sure.
Proof.
  intros Hn WT SR R Hj CT. unfold kernel_vector, bv_unit.
  destruct (assign_ok dim 0 j true) as (s0 & -> & C0); [lia|]. cbn [bind]. rewrite (positions_within dim n t) by auto.
  assert (FT : forall p, In p (positions_of n t) -> p < n /\ coord t p = true) by (intros p; apply (in_positions n)).
  set (f := positions_of n t) in *.
  eapply gives_bind.
  { apply (gives_each (fun i '(v, c) => c = i /\ bsize v = n /\ coord (data v) j = true /\
       (forall c p, c < i -> nth_error f c = Some p -> coord (data v) p = coord (nth c (D r) 0%N) j) /\
       forall p, p <> j -> ~ In p f -> coord (data v) p = false)) with (Q := fun '(v, c) => generator n f (D r) j v).
    - split; [auto|]. cbn [data bsize]. split; [auto|]. rewrite C0, Nat.eqb_refl. split; [auto|]. split; [intros; lia|].
      intros p N _. rewrite C0. apply Nat.eqb_neq in N. rewrite N. apply coord_0.
    - intros i p [v c] Ep (-> & BS & CJ & C1 & C2). assert (Ip : In p f) by (eapply nth_error_In; exact Ep). destruct (FT p Ip) as [P1 P2].
      assert (Hi : i < length r). { rewrite <- (map_length data r), (rd_length _ _ R). apply nth_error_Some. congruence. }
      destruct (get_some r i Hi) as (e & Ee).
      eapply gives_bind; [apply (gives_vget _ _ e (fun y => y = e)); auto|]. intros ? ->.
      unfold bv_test. rewrite test_ok by lia. cbn [bind]. unfold bv_set.
      destruct (assign_ok dim (data v) p (coord (data e) j)) as (s' & -> & CS); [lia|]. cbn [bind gives bsize data].
      pose proof (get_D _ _ _ Ee) as ED. apply nth_error_nth with (d := 0%N) in ED.
      split; [auto|]. split; [auto|]. split; [rewrite CS; destruct (Nat.eqb_spec j p); [congruence|auto]|]. split.
      + intros k q Hk Eq. rewrite CS. destruct (Nat.eqb_spec q p) as [->|N].
        * assert (i = k) as <-; [|now rewrite ED]. pose proof (reduced_nodup _ _ R) as N. rewrite NoDup_nth_error in N. apply N; [apply nth_error_Some|]; congruence.
        * apply C1; auto. destruct (Nat.eq_dec k i) as [->|]; [congruence|lia].
      + intros q Nq Iq. rewrite CS. destruct (Nat.eqb_spec q p) as [->|N]; [tauto|auto].
    - intros [v c] (-> & BS & CJ & C1 & C2). split; [split; [|auto]|].
      + intros p Hp. apply C2; [lia|]. intros I. apply FT in I. lia.
      + split; [auto|]. split; [|auto]. intros c p Ec. apply C1; auto. apply nth_error_Some. congruence. }
  intros [v c] G. exact G.
Qed.

Lemma coord_unit j p : coord (N.setbit 0 (N.of_nat j)) p = (p =? j).
Proof. rewrite coord_setbit, coord_0. apply orb_false_r. Qed.
Lemma scalar_unit n e j : j < n -> scalar n e (N.setbit 0 (N.of_nat j)) = coord e j.
Proof.
  intros H. unfold scalar. rewrite (sum2_single _ j); auto.
  - now rewrite coord_unit, Nat.eqb_refl, andb_true_r.
  - intros i _ N. rewrite coord_unit. apply Nat.eqb_neq in N. now rewrite N, andb_false_r.
Qed.
Lemma generator_kernel n t r j v : reduced (D r) (positions_of n t) -> j < n -> coord t j = false ->
  generator n (positions_of n t) (D r) j v -> forall e, In e (D r) -> scalar n e (data v) = false.
Proof.
  intros R Hj CT (SV & CJ & C1 & C2) e I. apply In_nth_error in I as [k Ek].
  assert (FT : forall p, In p (positions_of n t) -> p < n /\ coord t p = true) by (intros p; apply (in_positions n)).
  set (f := positions_of n t) in *. set (u := N.setbit 0 (N.of_nat j)).
  assert (PL : placed f (fun c => coord (nth c (D r) 0%N) j) (N.lxor (data v) u)).
  { split.
    - intros c p Ec. rewrite coord_lxor. unfold u. rewrite coord_unit, (C1 c p Ec). destruct (Nat.eqb_spec p j) as [->|]; [|apply xorb_false_r].
      apply nth_error_In, FT in Ec. destruct Ec. congruence.
    - intros p Ip. rewrite coord_lxor. unfold u. rewrite coord_unit. destruct (Nat.eqb_spec p j) as [->|]; [now rewrite CJ|]. rewrite C2; auto. }
  pose proof (placed_scalar n (D r) f _ _ R (fun p Ip => proj1 (FT p Ip)) PL k e Ek) as X. rewrite scalar_xor_r in X. unfold u in X. rewrite scalar_unit in X by auto.
  rewrite (nth_error_nth _ _ _ Ek) in X. destruct (scalar n e (data v)), (coord e j); cbn in X; congruence.
Qed.

Definition free_positions (t : N) (n : nat) : list nat := filter (fun p => negb (coord t p)) (seq 0 n).
Lemma free_nth_inj t n i j p : nth_error (free_positions t n) i = Some p -> nth_error (free_positions t n) j = Some p -> i = j.
Proof.
  intros Ei Ej. assert (N : NoDup (free_positions t n)) by (apply NoDup_filter, seq_NoDup). rewrite NoDup_nth_error in N.
  apply N; [apply nth_error_Some|]; congruence.
Qed.
Lemma Forall2_nth {A B} (P : A -> B -> Prop) l m : Forall2 P l m -> length l = length m /\
  (forall i x y, nth_error l i = Some x -> nth_error m i = Some y -> P x y).
Proof.
  induction 1 as [|x y l m H F [L IH]]; [split; [auto|intros [|i]; discriminate]|].
  split; [cbn; auto|]. intros [|i] a b Ea Eb; [cbn in *; congruence|]. apply (IH i a b Ea Eb).
Qed.

Theorem kernel_basis n t r (res : list bv) : within n t -> (forall e, In e (D r) -> within n e) -> reduced (D r) (positions_of n t) ->
  Forall2 (generator n (positions_of n t) (D r)) (free_positions t n) res ->
  basis_of (fun x => within n x /\ forall e, In e (D r) -> scalar n e x = false) (D res).
Proof.
  intros WT WR R F. destruct (Forall2_nth _ _ _ F) as [LF PF]. set (ks := free_positions t n) in *.
  assert (KS : forall p, In p ks <-> p < n /\ coord t p = false).
  { intros p. unfold ks, free_positions. rewrite filter_In, in_seq. destruct (coord t p); cbn; intuition; try lia; discriminate. }
  assert (FT : forall p, In p (positions_of n t) <-> p < n /\ coord t p = true) by (intros p; apply (in_positions n)).
  assert (G : forall k, k < length res -> generator n (positions_of n t) (D r) (nth k ks 0) (nth k res (bv_zero 0))).
  { intros k Hk. apply (PF k); apply nth_nth_error; lia. }
  assert (DN : forall k, k < length res -> nth k (D res) 0%N = data (nth k res (bv_zero 0))).
  { intros k _. change 0%N with (data (bv_zero 0)) at 1. apply map_nth. }
  assert (CK : forall k i, k < length res -> i < length res -> coord (nth k (D res) 0%N) (nth i ks 0) = (k =? i)).
  { intros k i Hk Hi. rewrite DN by auto. destruct (G k Hk) as (_ & A & _ & C). destruct (Nat.eqb_spec k i) as [->|N]; [auto|].
    apply C.
    - intros E. apply N. apply (free_nth_inj t n k i (nth k ks 0)); [|rewrite <- E]; apply nth_nth_error; fold ks; lia.
    - rewrite FT. assert (I : In (nth i ks 0) ks) by (apply nth_In; lia). apply KS in I as [_ ->]. intros [_ ?]. discriminate. }
  assert (CL : forall c i, i < length res -> coord (lincomb c (D res)) (nth i ks 0) = c i).
  { intros c i Hi. rewrite coord_lincomb, map_length, (sum2_single _ i); auto.
    - now rewrite CK, Nat.eqb_refl, andb_true_r.
    - intros k Hk N. rewrite CK by auto. apply Nat.eqb_neq in N. now rewrite N, andb_false_r. }
  assert (KI : forall x, In x (D res) -> within n x /\ forall e, In e (D r) -> scalar n e x = false).
  { intros x I. apply In_nth with (d := 0%N) in I as (k & Hk & <-). rewrite map_length in Hk. rewrite DN by auto. split; [apply (G k Hk)|].
    assert (I : In (nth k ks 0) ks) by (apply nth_In; lia). apply KS in I as [I1 I2].
    now apply (generator_kernel n t r (nth k ks 0)); [..|apply G]. }
  assert (KS2 : forall x, in_span (D res) x -> within n x /\ forall e, In e (D r) -> scalar n e x = false).
  { apply span_least; [| |auto].
    - split; [apply within_0|]. intros e _. rewrite scalar_comm. apply scalar_0.
    - intros v w [A B] [C E]. split; [now apply within_lxor|]. intros e I. now rewrite scalar_xor_r, B, E. }
  split.
  - intros c E i Hi. rewrite map_length in Hi. rewrite <- (CL c i Hi), E. apply coord_0.
  - intros x. split; [|apply KS2]. intros [WX EX]. exists (fun i => coord x (nth i ks 0)). set (y := lincomb _ _).
    destruct (KS2 y) as [WY EY]; [eexists; reflexivity|].
    assert (E0 : N.lxor x y = 0%N); [|apply N.lxor_eq in E0; auto].
    assert (Z : forall p, In p ks -> coord (N.lxor x y) p = false).
    { intros p I. apply In_nth with (d := 0) in I as (i & Hi & <-). rewrite coord_lxor. unfold y. rewrite CL by lia. apply xorb_nilpotent. }
    apply (within_ext n); [now apply within_lxor|apply within_0|]. intros p Hp. rewrite coord_0.
    destruct (coord t p) eqn:CT; [|apply Z, KS; auto].
    assert (I : In p (positions_of n t)) by (apply FT; auto). apply In_nth_error in I as [c Ec].
    assert (Hc : c < length (D r)). { rewrite (rd_length _ _ R). apply nth_error_Some. congruence. }
    assert (Ie : In (nth c (D r) 0%N) (D r)) by now apply nth_In.
    assert (S0 : scalar n (nth c (D r) 0%N) (N.lxor x y) = false) by (rewrite scalar_xor_r, EX, EY; auto).
    unfold scalar in S0. rewrite (sum2_single _ p) in S0; auto.
    + rewrite (rd_clear _ _ R c c (nth c (D r) 0%N) p), Nat.eqb_refl in S0; auto. now apply nth_nth_error.
    + intros i Hi N. destruct (coord t i) eqn:CI; [|rewrite Z; [apply andb_false_r|apply KS; auto]].
      assert (I : In i (positions_of n t)) by (apply FT; auto). apply In_nth_error in I as [d Ed].
      rewrite (rd_clear _ _ R c d (nth c (D r) 0%N) i); auto; [|now apply nth_nth_error].
      destruct (Nat.eqb_spec c d) as [->|]; [congruence|auto].
Qed.

Lemma image_coord A x i : coord (image_of A x) i = sum2 (length A) (fun k => entry A i k && coord x k).
Proof. unfold image_of. rewrite coord_lincomb. apply sum2_ext. intros k _. apply andb_comm. Qed.

Theorem bm_kernel_ok M : rows M <= dim -> ncols M <= dim -> is_matrix (rows M) (ncols M) (cols M) ->
  gives (bm_kernel dim M) (fun b => Forall (sized (ncols M)) b /\ basis_of (in_kernel (ncols M) (cols M)) (D b)) sure.
Proof.
  intros Hm Hn [_ WM]. unfold bm_kernel. set (n := ncols M) in *. destruct (Nat.eqb_spec n 0) as [E|_].
  { cbn [gives]. split; [auto|]. split; [intros c _ i; cbn; lia|]. intros v. unfold in_kernel. split.
    - intros [W _]. rewrite E in W. exists (fun _ => false). cbn. apply (within_ext 0); auto using within_0. lia.
    - intros H. apply span_nil in H. subst v. split; [apply within_0|]. unfold image_of. apply lincomb_0. intros; apply coord_0. }
  eapply gives_bind.
  { apply (gives_upto0 (fun i e => length e = i /\ Forall (sized n) e /\ forall k j, k < i -> j < n -> coord (nth k (D e) 0%N) j = entry (cols M) k j)) with
      (Q := fun e => length e = rows M /\ Forall (sized n) e /\ forall k j, k < rows M -> j < n -> coord (nth k (D e) 0%N) j = entry (cols M) k j).
    - split; [auto|]. split; [auto|lia].
    - intros i e Hi (L & S & C). eapply gives_bind; [apply bm_row_ok; unfold n in *; lia|]. intros v [SV CV]. cbn [gives].
      rewrite app_length. cbn [length]. split; [lia|]. split; [apply Forall_app; auto|]. intros k j Hk Hj. rewrite map_app. cbn [map].
      destruct (Nat.eq_dec k i) as [->|N].
      + rewrite app_nth2; rewrite map_length, L; [|lia]. rewrite Nat.sub_diag. cbn. now apply CV.
      + rewrite app_nth1 by (rewrite map_length; lia). apply C; lia.
    - auto. }
  intros e (LE & SE & CE).
  eapply gives_bind; [now apply (Gauss_Jordan_ok dim n)|]. intros [t r] (WT & SR & RE & SP).
  pose proof (echelon_reduced _ _ RE) as R.
  eapply gives_mono.
  { apply (gives_upto0 (fun i res => Forall2 (generator n (positions_of n t) (D r)) (free_positions t i) res)) with
      (Q := fun res => Forall2 (generator n (positions_of n t) (D r)) (free_positions t n) res); [constructor| |auto].
    intros i res Hi F. rewrite test_ok by lia. cbn [bind].
    assert (FS : free_positions t (S i) = free_positions t i ++ (if coord t i then [] else [i])).
    { unfold free_positions. rewrite seq_S, filter_app. cbn. now destruct (coord t i). }
    rewrite FS. destruct (coord t i) eqn:CT; cbn [negb].
    - rewrite app_nil_r. exact F.
    - eapply gives_bind; [now apply kernel_vector_ok|]. intros v GV. cbn [gives]. apply Forall2_app; auto. }
  intros res F. split.
  - destruct (Forall2_nth _ _ _ F) as [LF PF]. apply Forall_forall. intros x I. apply In_nth_error in I as [k Ek].
    assert (Hk : k < length (free_positions t n)). { rewrite LF. apply nth_error_Some. congruence. }
    apply (PF k (nth k (free_positions t n) 0) x); auto. now apply nth_nth_error.
  - destruct (kernel_basis n t r res WT (sized_D n r SR) R F) as [IN SPN]. split; [auto|]. intros v. rewrite <- SPN. unfold in_kernel.
    assert (X : image_of (cols M) v = 0%N <-> forall x, In x (D r) -> scalar n x v = false).
    { assert (Y : image_of (cols M) v = 0%N <-> forall x, In x (D e) -> scalar n x v = false).
      { assert (SR1 : forall k, k < rows M -> scalar n (nth k (D e) 0%N) v = coord (image_of (cols M) v) k).
        { intros k Hk. rewrite image_coord. apply sum2_ext. intros j Hj. now rewrite CE. }
        split.
        - intros Z x I. apply In_nth with (d := 0%N) in I as (k & Hk & <-). rewrite map_length, LE in Hk. now rewrite SR1, Z, coord_0.
        - intros H. apply (within_ext (rows M)); [|apply within_0|].
          + apply (span_within (rows M) (cols M)); [auto|]. eexists. reflexivity.
          + intros k Hk. rewrite <- SR1, coord_0 by auto. apply H, nth_In. now rewrite map_length, LE. }
      rewrite Y. assert (Z : forall b b', (forall u, in_span b u <-> in_span b' u) -> (forall x, In x b -> scalar n x v = false) -> forall x, In x b' -> scalar n x v = false).
      { intros b b' EQ H x I. apply span_in, EQ in I. revert x I. apply span_least; [apply scalar_0| |auto]. intros a c A C. now rewrite scalar_xor, A, C. }
      split; apply Z; intros u; rewrite SP; tauto. }
    rewrite X. tauto.
Qed.
End Dim.
