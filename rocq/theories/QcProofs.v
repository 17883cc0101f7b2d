(** Square classes: proofs. *)

From Coq Require Import List Arith NArith ZArith QArith Bool Lia Sorted.
From Verif Require LieTypeInv.
From Verif Require Import RedModel LatModel RedSpec LatSpec.
From Verif Require Import F2Model F2Spec F2Basics F2Proofs F2Ops F2Kernel F2Props SubqModel SubqSpec SubqProofs SubqQuot SubqProps.
From Verif Require Import VecModel RunModel RunProofs MatModel MatSpec MatLin MatRing MatProofs MatOps MatOps2 MatArith MatDiv RedProps LatProofs LatProps RatVecModel RatVecSpec RatVecProofs ToriModel ToriSpec ToriLat ToriProofs.
From Verif Require Import RootSpec RootMath DatModel DatSpec DatMath DatProofs DatOps DatProps YvModel YvSpec GtSpec GtRuns QcModel QcSpec.
Import ListNotations.
Open Scope nat_scope.

Lemma filter_most {X} (h : X -> bool) l : length (filter h l) <= length l.
Proof. induction l as [|x l IH]; [auto|]. cbn. destruct (h x); cbn; lia. Qed.
Lemma bs_unslice_ok dim v t n : n <= dim -> within n t ->
  gives (bs_unslice dim v t) (fun w => within n w /\ (forall k p, nth_error (positions_of n t) k = Some p -> coord w p = coord v k) /\ forall p, coord t p = false -> coord w p = false) sure.
Proof.
  intros H W. unfold bs_unslice. rewrite (positions_within dim n) by auto.
  assert (FT : forall p, In p (positions_of n t) <-> p < n /\ coord t p = true) by (intros p; apply (in_positions n)).
  assert (ND : NoDup (positions_of n t)) by (apply NoDup_filter, seq_NoDup). rewrite NoDup_nth_error in ND.
  assert (LE : length (positions_of n t) <= n) by (unfold positions_of; pose proof (filter_most (coord t) (seq 0 n)) as Q0; rewrite seq_length in Q0; exact Q0).
  set (f := positions_of n t) in *. eapply gives_bind.
  { apply (F2Basics.gives_each (fun i '(k, r) => k = i /\
      (forall k p, k < i -> nth_error f k = Some p -> coord r p = coord v k) /\ forall p, ~ In p f \/ (forall k, nth_error f k = Some p -> i <= k) -> coord r p = false)) with
      (Q := fun '(d, r) => (forall k p, nth_error f k = Some p -> coord r p = coord v k) /\ forall p, ~ In p f -> coord r p = false).
    - split; [auto|]. split; [lia|]. intros; apply coord_0.
    - intros i p [k r] Ep (-> & G1 & G2). assert (Ip : In p f) by (eapply nth_error_In; exact Ep). apply FT in Ip as [P1 P2].
      assert (Hi : i < length f) by (apply nth_error_Some; congruence). rewrite test_ok by lia. cbn [bind].
      assert (R0 : coord r p = false) by (apply G2; right; intros k Ek; assert (i = k) by (apply ND; congruence); lia).
      assert (LATER : forall q, ~ In q f \/ (forall k, nth_error f k = Some q -> S i <= k) -> ~ In q f \/ (forall k, nth_error f k = Some q -> i <= k)) by (intros q [N|N]; [now left|right; intros k Ek; specialize (N k Ek); lia]).
      destruct (coord v i) eqn:Ev.
      + destruct (assign_ok dim r p true) as (r' & -> & C); [lia|]. cbn [bind gives]. split; [auto|]. split.
        * intros k q Hk Eq. rewrite C. destruct (Nat.eqb_spec q p) as [->|N].
          -- assert (k = i) as -> by (apply ND; [apply nth_error_Some|]; congruence). now rewrite Ev.
          -- apply G1; auto. destruct (Nat.eq_dec k i) as [->|]; [congruence|lia].
        * intros q Iq. rewrite C. destruct (Nat.eqb_spec q p) as [->|N]; [|auto]. destruct Iq as [Iq|Iq]; [destruct Iq; apply FT; auto|]. specialize (Iq i Ep). lia.
      + cbn [gives]. split; [auto|]. split; [|auto]. intros k q Hk Eq. destruct (Nat.eq_dec k i) as [->|N]; [|apply G1; auto; lia]. congruence.
    - intros [d r] (_ & A & B). split; [|auto]. intros k p Ek. apply A; auto. apply nth_error_Some. congruence. }
  intros [d r] [A B]. cbn [gives]. split; [|split; [auto|]].
  - intros i Hi. apply B. rewrite FT. lia.
  - intros p Hp. apply B. rewrite FT. intros [_ X]. congruence.
Qed.

Lemma sorted_filter (h : nat -> bool) k a : StronglySorted lt (filter h (seq a k)).
Proof.
  revert a. induction k as [|k IH]; intros a; [constructor|]. cbn [seq filter]. destruct (h a); [|apply IH]. constructor; [apply IH|].
  apply Forall_forall. intros x Hx. apply filter_In in Hx as [Hx _]. apply in_seq in Hx. lia.
Qed.
Lemma zsum_minus k x y : (zsum k (fun i => x i - y i) = zsum k x - zsum k y)%Z.
Proof.
  replace (zsum k (fun i => x i - y i)%Z) with (zsum k (fun i => x i + (-1) * y i)%Z) by (apply MatLin.zsum_ext; intros; ring).
  rewrite MatLin.zsum_add, MatLin.zsum_mul_l. ring.
Qed.
Lemma firstn_more {X} (l : list X) i x : nth_error l i = Some x -> firstn (S i) l = firstn i l ++ [x].
Proof. revert i. induction l as [|y l IH]; intros [|i] H; try discriminate; [now injection H as ->|]. cbn [firstn app]. f_equal. now apply IH. Qed.
Section Run.
Variables (dim : nat) (fits : Z -> bool) (as_int : Z -> Z).
Hypothesis INT : forall z, as_int z = z.
Variables (r n : nat) (A B : nat -> nat -> Z) (p : predatum) (d : datum) (f : list nat) (dl : matrix Z) (g : nat -> nat -> Z).
Hypothesis Hd : datum_ok r n A B p d.
Hypothesis Rd : r <= dim.
Hypothesis Nd : n <= dim.
Hypothesis Fl : length f = n.
Hypothesis HM : is_mx dl r r g.
Hypothesis SZ : (N.of_nat (n * r) < 4294967296)%N.
Definition fix_list (k : nat) : list nat := filter (fun s => nth s f 0 =? s) (seq 0 k).
Lemma fix_list_S k : fix_list (S k) = fix_list k ++ (if nth k f 0 =? k then [k] else []).
Proof. unfold fix_list. rewrite seq_S, filter_app. cbn. reflexivity. Qed.
Lemma fix_list_le k : length (fix_list k) <= k.
Proof. unfold fix_list. pose proof (filter_most (fun s => nth s f 0 =? s) (seq 0 k)) as Q0. rewrite seq_length in Q0. exact Q0. Qed.
Lemma in_fix_list k s : In s (fix_list k) <-> s < k /\ nth s f 0 = s.
Proof. unfold fix_list. rewrite filter_In, in_seq, Nat.eqb_eq. lia. Qed.
Definition ready (k : nat) (st : matrix Z * N) : Prop :=
  is_mx (fst st) (length (fix_list k)) r (fun i j => A j (nth i (fix_list k) 0)) /\ within k (snd st) /\ forall s, s < k -> coord (snd st) s = (nth s f 0 =? s).
Lemma roots_run : gives (upto (d_ssrank d) 0 (fun i '(roots, fixed) =>
    run t <- vget f i;
    if t =? i then run fixed <- assign dim fixed i true; run a <- d_root d (d_simple d i); run roots <- add_row 0%Z roots a; Ok (roots, fixed)
    else Ok (roots, fixed)) (mat_fill 0 (d_rank d) 0%Z, 0%N)) (ready n) sure.
Proof.
  assert (E1 : d_ssrank d = n) by apply (k_ss r n A B p d Hd). assert (E2 : d_rank d = r) by apply Hd. rewrite E1, E2.
  apply (gives_upto0 ready).
  - split; [|split; [intros i _; apply coord_0|lia]]. cbn [fst fix_list]. apply (is_mx_ext _ _ _ (fun _ _ => 0%Z)); [apply MatProofs.fill_ok|]. intros i j Hi. cbn in Hi. lia.
  - intros i [M v] Hi (HMx & W & C). cbn [fst snd] in *. rewrite (LieTypeInv.vget_at f i 0) by lia. cbn [bind].
    assert (ST : forall b w, (forall j, coord w j = if j =? i then b else coord v j) -> b = (nth i f 0 =? i) -> within (S i) w /\ forall s, s < S i -> coord w s = (nth s f 0 =? s)).
    { intros b w Hw Hb. split.
      - intros j Hj. rewrite Hw. destruct (Nat.eqb_spec j i); [lia|]. apply W. lia.
      - intros s Hs. rewrite Hw. destruct (Nat.eqb_spec s i) as [->|]; [exact Hb|]. apply C. lia. }
    destruct (Nat.eqb_spec (nth i f 0) i) as [F|F].
    + destruct (assign_ok dim v i true ltac:(lia)) as (w & -> & Cw). cbn [bind]. destruct (d_simple_run r n A B p d Hd i Hi) as [-> _]. cbn [bind].
      assert (VF : is_vec (fcol r A i) r (fun j => A j i)) by (split; [apply fcol_length|]; intros k Hk; unfold get; rewrite (nth_error_nth' _ 0%Z) by (rewrite fcol_length; exact Hk); f_equal; now apply co_fcol).
      eapply gives_bind; [apply (add_row_ok 0%Z M _ r _ (fcol r A i) _ HMx VF)|].
      { apply N.le_lt_trans with (2 := SZ). pose proof (fix_list_le i). nia. }
      intros M' HM'. cbn [gives]. destruct (ST true w Cw eq_refl) as [S1 S2]. split; [|split; [exact S1|exact S2]]. cbn [fst].
      rewrite fix_list_S, (proj2 (Nat.eqb_eq _ _) F), app_length. cbn [length]. rewrite Nat.add_1_r. eapply is_mx_ext; [exact HM'|].
      intros a b Ha Hb. cbn beta. destruct (Nat.eqb_spec a (length (fix_list i))) as [->|Na].
      * rewrite app_nth2, Nat.sub_diag by lia. reflexivity.
      * rewrite app_nth1 by lia. reflexivity.
    + cbn [gives]. apply Nat.eqb_neq in F. destruct (ST false v) as [S1 S2]; [|reflexivity|split; [|split; [exact S1|exact S2]]].
      * intros j. destruct (Nat.eqb_spec j i) as [->|]; [apply W; lia|reflexivity].
      * cbn [fst]. rewrite fix_list_S, F, app_nil_r. exact HMx.
  - auto.
Qed.
Notation L := (fix_list n).
Notation m := (length L).
(** values of the fixed simple roots at a coweight *)
Definition values (v : nat -> Z) (k : nat) : Z := zsum r (fun j => A j (nth k L 0%nat) * v j)%Z.
Lemma image_values B0 x v : is_matrix m r B0 -> (forall i j, i < m -> j < r -> entry B0 i j = Z.odd (A j (nth i L 0))) -> mod2 r v x -> mod2 m (values v) (image_of B0 x).
Proof.
  intros MB EB (W & C). pose proof (lincomb_mod2 m r B0 (fun i j => A j (nth i L 0)) v MB EB) as H. unfold image_of.
  rewrite (lincomb_ext (coord x) (fun j => Z.odd (v j))); [exact H|]. intros j Hj. apply C. rewrite (proj1 MB) in Hj. exact Hj.
Qed.
Definition graded (y : N) : Prop := exists v, fixed_coweight r g v /\ mod2 m (values v) y.
Lemma space_run M : is_mx M m r (fun i j => A j (nth i L 0)) ->
  gives (run t <- transposed 0%Z dl; run e <- eigen_lattice fits as_int t 1; run A0 <- mat_mod2 dim e; run V <- ss_of_matrix dim A0; run gr <- mat_mod2 dim M; ss_apply dim V gr)
    (represents m graded) (overflows fits).
Proof.
  intros HMx. pose proof (fix_list_le n) as LE.
  eapply gives_bind; [apply (transposed_ok 0%Z dl r r g HM)|]. intros T HT.
  eapply gives_bind; [apply (C86_eigen_lattice fits as_int INT T r _ 1 HT)|]. intros K (k & h & HK & Bg).
  eapply gives_bind; [eapply gives_mono_err; [|apply (mat_mod2_ok dim K r k h HK Rd)]; intros e []|]. intros B0 (RB & MB & EB).
  assert (EIG : forall v, in_span (cols B0) v <-> exists x, fixed_coweight r g x /\ mod2 r x v).
  { intros v. rewrite (span_mod2 r k (cols B0) h v MB EB). assert (FX : forall x, fixed_coweight r g x <-> forall i, i < r -> fapply r (fun i j => g j i) x i = (1 * x i)%Z).
    { intros x. split; intros H i Hi; specialize (H i Hi); unfold fapply in *; lia. }
    split.
    - intros (c & H). exists (fapply k h c). split; [|exact H]. apply FX. destruct (proj1 Bg (fapply k h c)) as (_ & G). exact (G (ex_intro _ c (fun i Hi => eq_refl))).
    - intros (x & X & H). destruct (proj1 (proj1 Bg x) (proj1 (FX x) X)) as (c & Hc). exists c. apply (mod2_same r x); [exact Hc|exact H]. }
  eapply gives_bind; [eapply gives_conv; [| |apply (ss_of_matrix_ok dim B0)]|].
  { intros s Hs. rewrite RB in Hs. exact (represents_ext r _ _ s EIG Hs). }
  { intros e []. } { rewrite RB. exact Rd. } { unfold ncols. rewrite RB, (proj1 MB). exact MB. }
  intros V HV. cbn beta in HV. eapply gives_bind; [eapply gives_mono_err; [|apply (mat_mod2_ok dim M m r _ HMx)]; [intros e []|lia]|]. intros gr (RG & MG & EG).
  eapply gives_conv; [| |apply (apply_ok dim r _ V Rd HV gr)]; [|intros e []|rewrite RG; lia|exact (proj1 MG)|unfold ncols; rewrite RG, (proj1 MG); exact MG].
  intros s Hs. rewrite RG in Hs. apply (represents_ext m _ _ _) with (2 := Hs). intros y. split.
  - intros (x & (v & FV & Mv) & <-). exists v. split; [exact FV|]. now apply image_values.
  - intros (v & FV & Mv). destruct (coord_of_list r (fun j => Z.odd (v j))) as (x & Wx & Cx). assert (Mx : mod2 r v x) by (split; auto).
    exists x. split; [now exists v|]. apply (mod2_unique m (values v)); [|exact Mv]. now apply image_values.
Qed.
(** every vector is the sum of an element of the space and of one that is zero on the support, in one way *)
Lemma split_run V s y : represents m V s -> within m y -> exists w, within m w /\ (forall k, coord (ss_support s) k = true -> coord w k = false) /\ V (N.lxor y w).
Proof.
  intros R W. pose proof (C67_representative dim m V s (mk_bv y m) ltac:(pose proof (fix_list_le n); lia) R ltac:(split; [exact W|reflexivity])) as G.
  destruct (representative dim s (mk_bv y m)) as [w|e]; cbn [gives] in G; [|destruct G]. destruct G as ([W1 W2] & G1 & G2). exists (data w). split; [exact W1|]. split; [exact G2|exact G1].
Qed.
Lemma fixed_diff v w : fixed_coweight r g v -> fixed_coweight r g w -> fixed_coweight r g (fun j => v j - w j)%Z.
Proof.
  intros V W i Hi. rewrite <- (V i Hi), <- (W i Hi) at 1. rewrite <- zsum_minus. apply zsum_ext. intros j Hj. ring.
Qed.
Lemma bits_run w k : within k w -> k <= dim -> gives (each (positions dim w) (fun i result => run s <- assign dim 0 i true; Ok (result ++ [s])) [])
  (fun l => l = map (fun s => N.shiftl 1 (N.of_nat s)) (positions_of k w)) sure.
Proof.
  intros W Hk. rewrite (positions_within dim k) by auto.
  apply (F2Basics.gives_each (fun i l => l = map (fun s => N.shiftl 1 (N.of_nat s)) (firstn i (positions_of k w)))).
  - reflexivity.
  - intros i q l Eq ->. assert (In q (positions_of k w)) as Iq by (eapply nth_error_In; exact Eq). apply in_positions_of in Iq. unfold assign. rewrite (proj2 (Nat.ltb_lt _ _)) by lia. cbn [bind gives].
    rewrite (firstn_more _ _ _ Eq), map_app. f_equal.
  - intros l ->. now rewrite firstn_all.
Qed.
Theorem square_classes_run : gives (square_classes dim fits as_int d f dl)
  (fun l => exists L0, StronglySorted lt L0 /\ l = map (fun s => N.shiftl 1 (N.of_nat s)) L0 /\ class_basis r n A f g L0) (overflows fits).
Proof.
  unfold square_classes. pose proof (fix_list_le n) as LE.
  eapply gives_bind; [eapply gives_mono_err; [|exact roots_run]; intros e []|]. intros [M fx] (HMx & Wf & Cf). cbn [fst snd] in *.
  pose proof (space_run M HMx) as G. revert G.
  destruct (transposed 0%Z dl) as [T|e]; cbn [bind]; [|exact (fun H => H)].
  destruct (eigen_lattice fits as_int T 1) as [K|e]; cbn [bind]; [|exact (fun H => H)].
  destruct (mat_mod2 dim K) as [B0|e]; cbn [bind]; [|exact (fun H => H)].
  destruct (ss_of_matrix dim B0) as [V0|e]; cbn [bind]; [|exact (fun H => H)].
  destruct (mat_mod2 dim M) as [gr|e]; cbn [bind]; [|exact (fun H => H)].
  destruct (ss_apply dim V0 gr) as [V|e]; cbn [bind gives]; [|exact (fun H => H)]. intros R.
  assert (PL : positions_of n fx = L).
  { unfold positions_of, fix_list. apply filter_ext_in. intros a Ha. apply in_seq in Ha. apply Cf. lia. }
  eapply gives_bind; [eapply gives_mono_err; [|apply (bs_unslice_ok dim _ fx n Nd Wf)]; intros e []|]. intros w (Ww & Cw & Cz).
  eapply gives_conv; [| |apply (bits_run w n Ww Nd)]; [|intros e []]. intros l ->.
  exists (positions_of n w). split; [apply sorted_filter|]. split; [reflexivity|].
  rewrite (proj1 HMx), PL in Cw.
  (* the marked positions are those outside the support *)
  assert (MK : forall k, k < m -> coord w (nth k L 0) = negb (coord (ss_support V) k)).
  { intros k Hk. rewrite (Cw k) by (now apply nth_error_nth'). rewrite coord_complement, (proj2 (Nat.ltb_lt _ _)) by exact Hk. now destruct (coord _ k). }
  assert (FX : forall s, s < n -> nth s f 0 = s -> exists k, k < m /\ nth k L 0 = s).
  { intros s Hs Fs. apply (In_nth L s 0). apply in_fix_list. auto. }
  assert (OF : forall k, k < m -> nth k L 0 < n /\ nth (nth k L 0) f 0 = nth k L 0).
  { intros k Hk. apply in_fix_list. now apply nth_In. }
  assert (IN : forall s, In s (positions_of n w) -> s < n /\ nth s f 0 = s).
  { intros s Hs. apply in_positions_of in Hs as [H1 H2]. split; [exact H1|]. destruct (coord fx s) eqn:E; [|rewrite (Cz s E) in H2; discriminate].
    rewrite Cf in E by exact H1. now apply Nat.eqb_eq in E. }
  assert (ND : NoDup L) by (apply NoDup_filter, seq_NoDup).
  split; [exact IN|]. split.
  - intros c. destruct (coord_of_list m (fun k => c (nth k L 0))) as (y & Wy & Cy).
    destruct (split_run graded V y R Wy) as (x & Wx & Zx & v & FV & Wv & Mv).
    exists (fun s => existsb (fun k => (nth k L 0 =? s) && coord x k) (seq 0 m)).
    assert (EV : forall k, k < m -> existsb (fun k' => (nth k' L 0 =? nth k L 0) && coord x k') (seq 0 m) = coord x k).
    { intros k Hk. apply eq_iff_eq_true. rewrite existsb_exists. split.
      - intros (k' & I' & E'). apply in_seq in I'. apply andb_true_iff in E' as [E1 E2]. apply Nat.eqb_eq in E1.
        assert (k' = k) as <- by (apply (proj1 (NoDup_nth L 0) ND); [lia|lia|exact E1]). exact E2.
      - intros E. exists k. rewrite in_seq, Nat.eqb_refl. split; [lia|exact E]. }
    split.
    + intros s Es. apply existsb_exists in Es as (k & Ik & E). apply in_seq in Ik. apply andb_true_iff in E as [E1 E2]. apply Nat.eqb_eq in E1. subst s.
      apply in_positions_of. split; [apply OF; lia|]. rewrite MK by lia. destruct (coord (ss_support V) k) eqn:E; [|reflexivity]. rewrite (Zx k E) in E2. discriminate.
    + exists v. split; [exact FV|]. intros s Hs Fs. destruct (FX s Hs Fs) as (k & Hk & <-). rewrite EV by exact Hk. rewrite <- (Cy k Hk), <- coord_lxor. apply Mv. exact Hk.
  - intros c x x' Sx Sx' (v & FV & Ev) (v' & FV' & Ev') s.
    destruct (coord_of_list m (fun k => xorb (x (nth k L 0)) (x' (nth k L 0)))) as (y & Wy & Cy).
    assert (Y0 : y = 0%N).
    { apply (space_zero m graded V R).
      - exists (fun j => v j - v' j)%Z. split; [now apply fixed_diff|]. split; [exact Wy|]. intros k Hk. rewrite Cy by exact Hk. destruct (OF k Hk) as [O1 O2].
        specialize (Ev _ O1 O2). specialize (Ev' _ O1 O2). unfold values. replace (zsum r _) with (zsum r (fun j => A j (nth k L 0%nat) * v j) - zsum r (fun j => A j (nth k L 0%nat) * v' j))%Z.
        2:{ rewrite <- zsum_minus. apply zsum_ext. intros j Hj. ring. }
        rewrite Z.odd_sub, <- Ev, <- Ev'. destruct (c _), (x _), (x' _); reflexivity.
      - intros k Ek. destruct (Nat.lt_ge_cases k m) as [Hk|Hk]; [|now apply Wy]. rewrite Cy by exact Hk.
        assert (OUT : ~ In (nth k L 0) (positions_of n w)) by (rewrite in_positions_of, MK, Ek by exact Hk; intros [_ X]; discriminate).
        destruct (x (nth k L 0)) eqn:E1; [destruct OUT; auto|]. destruct (x' (nth k L 0)) eqn:E2; [destruct OUT; auto|]. reflexivity. }
    destruct (x s) eqn:E1, (x' s) eqn:E2; try reflexivity; exfalso.
    + destruct (IN s (Sx s E1)) as [H1 H2]. destruct (FX s H1 H2) as (k & Hk & <-). specialize (Cy k Hk). rewrite Y0, E1, E2, coord_0 in Cy. discriminate.
    + destruct (IN s (Sx' s E2)) as [H1 H2]. destruct (FX s H1 H2) as (k & Hk & <-). specialize (Cy k Hk). rewrite Y0, E1, E2, coord_0 in Cy. discriminate.
Qed.
End Run.
(** compact simple roots for a torus element *)
Section Compact.
Variables (dim r n : nat) (A B : nat -> nat -> Z) (p : predatum) (d : datum).
Hypothesis Hd : datum_ok r n A B p d.
Hypothesis Nd : n <= dim.
Lemma torus_compact_run t q imag z : is_exp t r q -> within n imag -> (forall s, s < n -> coord imag s = true -> (pairQ r (fun j => A j s) q == inject_Z (z s))%Q) ->
  gives (torus_compact_simples dim d t imag) (fun c => forall s, coord c s = coord imag s && Z.odd (z s)) (fun e => e = Overflow).
Proof.
  intros HT Wi Hz. unfold torus_compact_simples. rewrite (positions_within dim n) by auto.
  assert (IP : forall s, In s (positions_of n imag) <-> s < n /\ coord imag s = true) by (intros s; apply in_positions_of).
  apply (F2Basics.gives_each (fun i c => forall s, coord c s = (if in_dec Nat.eq_dec s (firstn i (positions_of n imag)) then Z.odd (z s) else false))).
  - intros s. cbn [firstn]. destruct (in_dec _ _ _) as [[]|]. apply coord_0.
  - intros i s c Es HC. assert (Is : In s (positions_of n imag)) by (eapply nth_error_In; exact Es). apply IP in Is as [Hs Cs].
    destruct (d_simple_run r n A B p d Hd s Hs) as [-> _]. cbn [bind].
    assert (VF : is_vec (fcol r A s) r (fun j => A j s)) by (split; [apply fcol_length|]; intros k Hk; unfold get; rewrite (nth_error_nth' _ 0%Z) by (rewrite fcol_length; exact Hk); f_equal; now apply co_fcol).
    eapply gives_bind; [apply (negative_rv t r q _ _ (z s) HT VF (Hz s Hs Cs))|]. intros b ->.
    destruct (assign_ok dim c s (Z.odd (z s)) ltac:(lia)) as (c' & -> & Cc). cbn [gives]. intros k. rewrite Cc, HC, (firstn_more _ _ _ Es).
    destruct (Nat.eqb_spec k s) as [->|N].
    + destruct (in_dec _ _ _) as [|X]; [reflexivity|]. destruct X. apply in_or_app. right. now left.
    + destruct (in_dec _ k (firstn i _)) as [X|X], (in_dec _ k (_ ++ _)) as [Y|Y]; try reflexivity.
      * destruct Y. apply in_or_app. now left.
      * apply in_app_or in Y as [Y|[->|[]]]; [now destruct X|now destruct N].
  - intros c HC s. rewrite HC, firstn_all. destruct (in_dec _ _ _) as [X|X].
    + apply IP in X as [_ ->]. reflexivity.
    + destruct (coord imag s) eqn:E; [|reflexivity]. destruct X. apply IP. split; [|exact E]. destruct (Nat.lt_ge_cases s n) as [|G]; [assumption|]. rewrite (Wi s G) in E. discriminate.
Qed.
End Compact.
