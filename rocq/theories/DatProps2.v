(** Root data: properties of the code in sources/structure/prerootdata.cpp and rootdata.cpp, continued. *)

From Coq Require Import List Arith ZArith Bool Lia Sorted.
From Verif Require Import VecModel VecProofs RunModel RunProofs MatModel MatSpec MatProofs MatLin MatDet MatOps MatProps RedModel RedSpec RedSolve RedSystem RedProps LatModel LatSpec
  LieTypeModel LieTypeSpec LieTypeProofs RootModel RootSpec RootBase RootMath RootForm RootFin RootCo RootAcc RootSys RootUniq RootTop RootProps
  DatModel DatSpec DatMath DatProofs DatOps DatFactor DatMats DatGens DatSub DatFund DatPre DatType DatProps.
Import ListNotations.
Local Open Scope Z_scope.

(** * C108: vectors dominant for a subsystem *)
(** [S] is a set of roots closed under its own reflections, and [g] lists its simple roots *)
Definition subsystem_of (d : datum) (S : bset) (g : list nat) : Prop :=
  length S = num_roots (d_sys d) /\ (forall a b c, bmem S a = true -> bmem S b = true -> reflected (d_sys d) a b = Ok c -> bmem S c = true) /\ simple_basis (d_sys d) S = Ok g.
(** the vectors of the roots and coroots that are listed *)
Definition listed_roots (r n : nat) (A : nat -> nat -> Z) (d : datum) (g : list nat) (i : nat) : list Z := comb r n (fcol r A) (root_at (d_sys d) (nth i g 0%nat)).
Definition listed_coroots (r n : nat) (B : nat -> nat -> Z) (d : datum) (g : list nat) (i : nat) : list Z := comb r n (fcol r B) (coroot_at (d_sys d) (nth i g 0%nat)).
(** the loop ends with a vector dominant for the subsystem and a word in its simple reflections that gives the argument back *)
Theorem C108_dominant (fits : Z -> bool) (r n : nat) (A B : nat -> nat -> Z) (p : predatum) (d : datum) (S : bset) (g : list nat) (v : list Z) : datum_of fits r n A B p d ->
  subsystem_of d S g -> length v = r ->
  gives (factor_dominant_gens fits idZ d g v) (fun '(w, u) => length u = r /\ dominant r (length g) (listed_coroots r n B d g) u /\ word (length g) w /\
    act_by r (listed_roots r n A d g) (listed_coroots r n B d g) w u = v) (overflows fits).
Proof.
  intros K (SL & SR & Sg) L. apply datum_of_ok in K. eapply gives_mono; [apply (factor_dominant_gens_ok fits r n A B p d K S SL SR g Sg v L)|]. intros [w u] H. exact H.
Qed.
Theorem C108_codominant (fits : Z -> bool) (r n : nat) (A B : nat -> nat -> Z) (p : predatum) (d : datum) (S : bset) (g : list nat) (v : list Z) : datum_of fits r n A B p d ->
  subsystem_of d S g -> length v = r ->
  gives (factor_codominant_gens fits idZ d g v) (fun '(w, u) => length u = r /\ dominant r (length g) (listed_roots r n A d g) u /\ word (length g) w /\
    act_by r (listed_coroots r n B d g) (listed_roots r n A d g) (rev w) u = v) (overflows fits).
Proof.
  intros K (SL & SR & Sg) L. apply datum_of_ok in K. eapply gives_mono; [apply (factor_codominant_gens_ok fits r n A B p d K S SL SR g Sg v L)|]. intros [w u] H. exact H.
Qed.
(** the long roots of GSp(4), a subsystem of type A1 x A1 *)
Definition long_set : bset := [true; false; true; false; false; true; false; true].
Lemma long_ok : subsystem_of D long_set [5; 7]%nat.
Proof.
  split; [reflexivity|]. split; [|vm_compute; reflexivity]. intros a b c Ha Hb.
  do 8 (destruct a as [|a]; [try discriminate Ha; do 8 (destruct b as [|b]; [try discriminate Hb; vm_compute; intros Q; injection Q as <-; reflexivity|]); destruct b; discriminate Hb|]). destruct a; discriminate Ha.
Qed.
Example C108_ex : datum_of i32 3 2 gA gB gsp D /\ subsystem_of D long_set [5; 7]%nat /\
  factor_dominant_gens i32 idZ D [5; 7]%nat [-3; -5; 2] = Ok ([0; 1]%nat, [3; 5; -6]) /\ factor_codominant_gens i32 idZ D [5; 7]%nat [-3; -5; 2] = Ok ([1; 0]%nat, [5; 7; 2]).
Proof. split; [apply datum_gsp|]. split; [exact long_ok|]. vm_compute. auto. Qed.
(** make_dominant and make_codominant with a list of generators do not use the list: the result is then not in the orbit
    under the reflections listed.  For the empty list the vector should be returned unchanged; for the long roots the
    vector is already dominant *)
Theorem C108_make_refuted : exists v u, datum_of i32 3 2 gA gB gsp D /\ subsystem_of D long_set [5; 7]%nat /\ length v = 3%nat /\
  dominant 3 2 (listed_coroots 3 2 gB D [5; 7]%nat) v /\ make_dominant_gens i32 idZ D [5; 7]%nat v = Ok u /\ u <> v /\ make_dominant_gens i32 idZ D [] v = Ok u /\
  factor_dominant_gens i32 idZ D [5; 7]%nat v = Ok ([], v) /\ factor_dominant_gens i32 idZ D [] v = Ok ([], v).
Proof.
  exists [1; 2; 0], [2; 1; 0]. split; [apply datum_gsp|]. split; [exact long_ok|]. split; [reflexivity|]. split; [intros [|[|i]] Hi; [vm_compute; discriminate|vm_compute; discriminate|lia]|].
  split; [vm_compute; reflexivity|]. split; [discriminate|]. split; [vm_compute; reflexivity|]. split; vm_compute; reflexivity.
Qed.

(** * C110: the dual datum, and data read back *)
(** the dual datum, made by interchanging fields, is the one that the constructor makes from the dual description *)
Theorem C110_dual (fits : Z -> bool) (r n : nat) (A B : nat -> nat -> Z) (p : predatum) (d : datum) : datum_of fits r n A B p d ->
  based r n B A (p_dual p) /\ exists d', dual_datum d = Ok d' /\ forall fits', gives (root_datum fits' (p_dual p)) (fun d2 => d2 = d') (overflows fits').
Proof.
  intros K. pose proof (datum_of_ok _ _ _ _ _ _ _ K) as Q. destruct K as ((HA & HB & L & F) & _).
  assert (F' : finite_type n (pairings r B A)) by (apply (finite_ext n (flip (pairings r A B))); [intros i j _ _; apply dot_comm|apply finite_flip; exact F]).
  split; [split; [exact HB|]; split; [exact HA|]; split; [exact L|exact F']|].
  destruct (dual_run r n A B p d Q) as (d' & E & K'). exists d'. split; [exact E|]. intros fits'. eapply gives_mono; [apply (root_datum_ok fits' r n B A (p_dual p) HB HA L F')|].
  intros d2 K2. symmetry. apply (datum_unique r n B A (p_dual p) d' K' d2 K2).
Qed.
(** the description read back is the one it was made from *)
Theorem C110_back (fits : Z -> bool) (r n : nat) (A B : nat -> nat -> Z) (p : predatum) (d : datum) : datum_of fits r n A B p d -> to_pre d = Ok p.
Proof. intros K. pose proof (datum_of_ok _ _ _ _ _ _ _ K) as Q. destruct K as ((HA & HB & _) & _). apply (to_pre_run r n A B p d Q HA HB). Qed.
(** the description of a subsystem has the listed roots and coroots as columns *)
Theorem C110_sub (fits : Z -> bool) (r n : nat) (A B : nat -> nat -> Z) (p : predatum) (d : datum) (g : list nat) : datum_of fits r n A B p d ->
  Forall (fun a => (a < num_roots (d_sys d))%nat) g ->
  exists q, sub_predatum d g = Ok q /\ p_prefer q = p_prefer p /\ p_rank q = r /\ p_ssrank q = length g /\
    forall j, (j < length g)%nat -> p_root q j = d_root d (nth j g 0%nat) /\ p_coroot q j = d_coroot d (nth j g 0%nat).
Proof.
  intros K Fg. apply datum_of_ok in K. destruct (sub_run r n A B p d K g Fg) as (q & E & P & H1 & H2). exists q. split; [exact E|]. split; [exact P|]. split; [apply H1|]. split; [apply H1|].
  intros j Hj. unfold p_root, p_coroot. rewrite (column_run _ _ _ _ j H1 Hj), (column_run _ _ _ _ j H2 Hj).
  assert (Ij : (nth j g 0 < num_roots (d_sys d))%nat) by (rewrite Forall_forall in Fg; apply Fg; apply nth_In; exact Hj). destruct (d_root_run r n A B p d K _ Ij) as [-> ->].
  split; f_equal; (apply vec_ext; [rewrite fcol_length, comb_length; reflexivity|]; intros k Hk; rewrite fcol_length in Hk; rewrite co_fcol by exact Hk; reflexivity).
Qed.
Example C110_ex : datum_of i32 3 2 gA gB gsp D /\ to_pre D = Ok gsp /\ dual_datum D = root_datum i32 (p_dual gsp) /\
  sub_predatum D [5; 7]%nat = Ok (mk_pre (mk_mat 3 2 [0; 2; 2; 0; -1; -1]) (mk_mat 3 2 [0; 1; 1; 0; 0; 0]) false).
Proof. split; [apply datum_gsp|]. vm_compute. auto. Qed.

(** * C111: the datum of a Lie type *)
(** rank and semisimple rank are those of the type, the Cartan matrix is that of its semisimple part, and the coroots
    span a saturated lattice: the datum is simply connected *)
Theorem C111_type (lt : lietype) (pf : bool) : valid_type lt -> (total lt <= 32)%nat ->
  exists q A B, p_of_type lt pf = Ok q /\ p_prefer q = pf /\ based (total lt) (total (derived lt)) A B q /\
    (forall i j, (i < total (derived lt))%nat -> (j < total (derived lt))%nat -> pairings (total lt) A B i j = block_diagonal (derived lt) i j) /\
    saturated (total lt) (total (derived lt)) B.
Proof.
  intros V L. assert (SM : small lt).
  { clear V. induction lt as [|s lt IH]; [constructor|]. cbn [total] in L. constructor; [lia|apply IH; lia]. }
  destruct (of_type_run lt pf V SM) as (q & E & P & H1 & H2). exists q, (type_root lt), (type_coroot lt). split; [exact E|]. split; [exact P|]. split.
  - split; [exact H1|]. split; [exact H2|]. split; [|apply DatType.type_finite; exact V].
    assert (Le : (total (derived lt) <= total lt)%nat); [|lia]. clear. induction lt as [|s lt IH]; [reflexivity|]. unfold derived. cbn [filter]. fold (derived lt). destruct (negb (leqb (fst s) tT)); cbn [total]; lia.
  - split; [apply type_pairings|apply type_saturated].
Qed.
Example C111_ex : valid_type [(tT, 1%nat); (tB, 2%nat)] /\ p_of_type [(tT, 1%nat); (tB, 2%nat)] false = Ok (mk_pre (mk_mat 3 2 [0; 0; 2; -1; -2; 2]) (mk_mat 3 2 [0; 0; 1; 0; 0; 1]) false).
Proof. split; [repeat constructor; cbn; lia|]. vm_compute. reflexivity. Qed.

(** * C112: the derived and the coderived datum *)
(** a change of lattice by [q] and its transpose keeps the pairings *)
Lemma pairings_shift r m n A B A' B' q : feq m n A' (fmul r q A) -> feq r n B (fmul m (fun i k => q k i) B') ->
  forall i j, (i < n)%nat -> (j < n)%nat -> pairings r A B i j = pairings m A' B' i j.
Proof.
  intros EA EB i j Hi Hj. unfold pairings, dot.
  rewrite (zsum_ext r _ (fun x => zsum m (fun k => q k x * A x i * B' k j))).
  - rewrite zsum_swap. apply zsum_ext. intros k Hk. rewrite !co_fcol by exact Hk. rewrite (EA k i Hk Hi). unfold fmul. rewrite (Z.mul_comm (zsum _ _)), <- zsum_mul_l. apply zsum_ext. intros x Hx. lia.
  - intros x Hx. rewrite !co_fcol by exact Hx. rewrite (EB x j Hx Hj). unfold fmul. rewrite <- zsum_mul_l. apply zsum_ext. intros k Hk. lia.
Qed.
Lemma based_independent r n A B p : based r n A B p -> independent r n A /\ independent r n B /\ good n (pairings r A B).
Proof.
  intros (_ & _ & _ & F). pose proof (finite_good n _ F) as g. pose proof (finite_good n _ (finite_flip n _ F)) as g'. split; [|split; [|exact g]].
  - apply (independent_roots r n A B (pairings r A B)); [reflexivity|exact g].
  - apply (independent_roots r n B A (flip (pairings r A B))); [intros i j _ _; apply dot_comm|exact g'].
Qed.
Lemma based_shift r m n A B p A' B' p' q : based r n A B p -> is_mx (p_roots p') m n A' -> is_mx (p_coroots p') m n B' -> feq m n A' (fmul r q A) -> feq r n B (fmul m (fun i k => q k i) B') -> based m n A' B' p'.
Proof.
  intros (_ & _ & L & F) H1 H2 EA EB. split; [exact H1|]. split; [exact H2|]. split; [exact L|]. apply (finite_ext n (pairings r A B)); [|exact F]. apply pairings_shift with (q := q); assumption.
Qed.
(** the derived datum is of semisimple rank: weights are restricted by a projection [q] of the lattice onto Z^n, and the
    coroots are the images of those of the new datum under its transpose, which is injective with saturated image *)
Theorem C112_derived (fits : Z -> bool) (as_int : Z -> Z) (r n : nat) (A B : nat -> nat -> Z) (p : predatum) : (forall z, as_int z = z) -> based r n A B p ->
  gives (p_derived fits as_int p) (fun '(pr, p') => exists q t A' B', is_mx pr n r q /\ based n n A' B' p' /\ p_prefer p' = p_prefer p /\
    feq n n (fmul r q t) delta /\ feq n n A' (fmul r q A) /\ feq r n B (fmul n (fun i k => q k i) B') /\
    forall i j, (i < n)%nat -> (j < n)%nat -> pairings n A' B' i j = pairings r A B i j) (overflows fits).
Proof.
  intros Hint Bd. destruct (based_independent r n A B p Bd) as (_ & I & _). pose proof Bd as (HA & HB & _).
  eapply gives_mono; [apply (derived_run fits as_int Hint r n A B p HA HB I)|]. intros [pr p'] (q & t & A' & B' & H1 & H2 & H3 & H4 & H5 & H6 & H7). exists q, t, A', B'.
  split; [exact H1|]. split; [apply (based_shift r n n A B p A' B' p' q); assumption|]. split; [exact H4|]. split; [exact H5|]. split; [exact H6|]. split; [exact H7|].
  intros i j Hi Hj. symmetry. apply (pairings_shift r n n A B A' B' q); assumption.
Qed.
(** the coderived datum: the new weights are those in the saturation of the root lattice, which [q] includes; coweights
    are restricted to them *)
Theorem C112_coderived (fits : Z -> bool) (as_int : Z -> Z) (r n : nat) (A B : nat -> nat -> Z) (p : predatum) : (forall z, as_int z = z) -> based r n A B p ->
  gives (p_coderived fits as_int p) (fun '(inj, p') => exists q t A' B', is_mx inj r n q /\ based n n A' B' p' /\ p_prefer p' = p_prefer p /\
    feq n n (fmul r t q) delta /\ feq r n A (fmul n q A') /\ feq n n B' (fmul r (fun k i => q i k) B) /\
    forall i j, (i < n)%nat -> (j < n)%nat -> pairings n A' B' i j = pairings r A B i j) (overflows fits).
Proof.
  intros Hint Bd. destruct (based_independent r n A B p Bd) as (I & _ & _). pose proof Bd as (HA & HB & L & F).
  eapply gives_mono; [apply (coderived_run fits as_int Hint r n A B p HA HB I)|]. intros [inj p'] (q & t & A' & B' & H1 & H2 & H3 & H4 & H5 & H6 & H7).
  assert (Ep : forall i j, (i < n)%nat -> (j < n)%nat -> pairings n A' B' i j = pairings r A B i j).
  { intros i j Hi Hj. transitivity (pairings n B' A' j i); [apply dot_comm|]. transitivity (pairings r B A j i); [|apply dot_comm]. symmetry. apply (pairings_shift r n n B A B' A' (fun k i => q i k)); assumption. }
  exists q, t, A', B'. split; [exact H1|]. split.
  - split; [exact H2|]. split; [exact H3|]. split; [exact L|]. apply (finite_ext n (pairings r A B)); [|exact F]. intros i j Hi Hj. symmetry. apply Ep; assumption.
  - split; [exact H4|]. split; [exact H5|]. split; [exact H6|]. split; [exact H7|exact Ep].
Qed.
Example C112_ex : based 3 2 gA gB gsp /\
  p_derived i32 idZ gsp = Ok (mk_mat 2 3 [1; -1; 0; 0; 1; 0], mk_pre (mk_mat 2 2 [2; -2; -1; 2]) (mk_mat 2 2 [1; 0; 0; 1]) false) /\
  p_coderived i32 idZ gsp = Ok (mk_mat 3 2 [1; 0; -1; 2; 0; -1], mk_pre (mk_mat 2 2 [1; 0; 0; 1]) (mk_mat 2 2 [2; -1; -2; 2]) false).
Proof. split; [exact based_gsp|]. vm_compute. auto. Qed.

(** * C113: the quotient by a central subgroup *)
(** given generators (the columns of [L]) of a sublattice of full rank that contains the roots, the new datum has the
    roots in terms of them and the coroots restricted to it.  The other cases are refused *)
Theorem C113_quotient (fits : Z -> bool) (as_int : Z -> Z) (r n : nat) (A B : nat -> nat -> Z) (p : predatum) (L : matrix Z) (m k : nat) (g : nat -> nat -> Z) : (forall z, as_int z = z) -> based r n A B p ->
  is_mx L m k g ->
  gives (p_quotient fits as_int p L) (fun p' => m = r /\ k = r /\ det r g <> 0 /\ exists A' B', based r n A' B' p' /\ p_prefer p' = p_prefer p /\
      feq r n A (fmul r g A') /\ feq r n B' (fmul r (fun i k => g k i) B) /\ forall i j, (i < n)%nat -> (j < n)%nat -> pairings r A' B' i j = pairings r A B i j)
    (fun e => e = Thrown /\ (m <> r \/ k <> r \/ det r g = 0 \/ (exists d, least_denominator r g d /\ 2147483648 <= d) \/
      (exists j, (j < n)%nat /\ ~ solvable r r g (fun i => A i j))) \/ overflows fits e).
Proof.
  intros Hint Bd HL. pose proof Bd as (HA & HB & L32 & F). eapply gives_mono; [apply (quotient_run fits as_int Hint r n A B p HA HB L m k g HL)|].
  intros p' (H1 & H2 & H3 & A' & B' & H4 & H5 & H6 & H7 & H8). split; [exact H1|]. split; [exact H2|]. split; [exact H3|].
  assert (Ep : forall i j, (i < n)%nat -> (j < n)%nat -> pairings r A' B' i j = pairings r A B i j).
  { intros i j Hi Hj. transitivity (pairings r B' A' j i); [apply dot_comm|]. transitivity (pairings r B A j i); [|apply dot_comm]. symmetry. apply (pairings_shift r r n B A B' A' (fun k i => g i k)); assumption. }
  exists A', B'. split; [|split; [exact H6|split; [exact H7|split; [exact H8|exact Ep]]]]. split; [exact H4|]. split; [exact H5|]. split; [exact L32|]. apply (finite_ext n (pairings r A B)); [|exact F]. intros i j Hi Hj. symmetry. apply Ep; assumption.
Qed.
(** SL(2) x GL(1) modulo an element of order two is GL(2); a lattice without the root is refused *)
Definition sl2 : predatum := mk_pre (mk_mat 2 1 [2; 0]) (mk_mat 2 1 [1; 0]) false.
Lemma based_sl2 : based 2 1 (ent 1 [2; 0]) (ent 1 [1; 0]) sl2.
Proof.
  split; [|split; [|split; [lia|]]].
  - split; [reflexivity|]. split; [reflexivity|]. split; [reflexivity|]. intros [|[|i]] [|j] Hi Hj; try lia; reflexivity.
  - split; [reflexivity|]. split; [reflexivity|]. split; [reflexivity|]. intros [|[|i]] [|j] Hi Hj; try lia; reflexivity.
  - eapply (RootProps.type_finite 1 _ (mk_mat 1 1 [2])); [lia| |vm_compute; reflexivity]. split; [reflexivity|]. split; [reflexivity|]. split; [reflexivity|]. intros [|i] [|j] Hi Hj; try lia; reflexivity.
Qed.
Example C113_ex : based 2 1 (ent 1 [2; 0]) (ent 1 [1; 0]) sl2 /\
  p_quotient i32 idZ sl2 (mk_mat 2 2 [1; 0; 1; 2]) = Ok (mk_pre (mk_mat 2 1 [2; -1]) (mk_mat 2 1 [1; 0]) false) /\ p_quotient i32 idZ sl2 (mk_mat 2 2 [4; 0; 0; 1]) = Fail Thrown.
Proof. split; [exact based_sl2|]. vm_compute. auto. Qed.

(** * C114: fundamental weights *)
(** the numerators: combinations of the simple roots (coroots) that pair to 0 with the simple coroots (roots) but one,
    and with it to the least denominator of the inverse Cartan matrix *)
Theorem C114_fundamental (fits : Z -> bool) (as_int : Z -> Z) (short : Z -> bool) (r n : nat) (A B : nat -> nat -> Z) (p : predatum) : (forall z, as_int z = z) -> based r n A B p ->
  gives (fundamental fits as_int short p) (fun '(ws, vs, den) => least_denominator n (pairings r A B) den /\ length ws = n /\ length vs = n /\
     forall i, (i < n)%nat -> exists w v u u', get ws i = Some w /\ get vs i = Some v /\ w = comb r n (fcol r A) u /\ v = comb r n (fcol r B) u' /\
       forall j, (j < n)%nat -> dot r w (fcol r B j) = den * delta i j /\ dot r (fcol r A j) v = den * delta i j)
  (fun e => e = Thrown /\ (exists d, least_denominator n (pairings r A B) d /\ 2147483648 <= d) \/ overflows short e \/ overflows fits e).
Proof. intros Hint Bd. destruct (based_independent r n A B p Bd) as (_ & _ & gd). destruct Bd as (HA & HB & _). exact (fundamental_run fits as_int Hint r n A B p HA HB gd short). Qed.
(** the inverse Cartan matrix is kept as a matrix of type short *)
Definition short16 (z : Z) : bool := (-32768 <=? z) && (z <? 32768).
Example C114_ex : based 3 2 gA gB gsp /\ fundamental i32 idZ short16 gsp = Ok ([[2; 0; -1]; [2; 2; -2]], [[2; 0; 0]; [1; 1; 0]], 2).
Proof. split; [exact based_gsp|]. vm_compute. reflexivity. Qed.
(** that type is too small for ranks that are allowed: for the simply connected datum of type E8.A8.A6.A4.A3, of rank 29,
    every integral multiple of the inverse has an entry that does not fit *)
Definition big_type : lietype := [(tE, 8%nat); (tA, 8%nat); (tA, 6%nat); (tA, 4%nat); (tA, 3%nat)].
Definition E8_inverse : list (list Z) := [[4; 5; 7; 10; 8; 6; 4; 2]; [5; 8; 10; 15; 12; 9; 6; 3]; [7; 10; 14; 20; 16; 12; 8; 4]; [10; 15; 20; 30; 24; 18; 12; 6]; [8; 12; 16; 24; 20; 15; 10; 5]; [6; 9; 12; 18; 15; 12; 8; 4]; [4; 6; 8; 12; 10; 8; 6; 3]; [2; 3; 4; 6; 5; 4; 3; 2]].
(** the entries of 1260 times the inverse: for A_m those are (min(i,j)+1)(m-max(i,j))/(m+1) *)
Definition A_inverse (m i j : nat) : Z := Z.of_nat (S (Nat.min i j) * (m - Nat.max i j)) * (1260 / Z.of_nat (S m)).
Definition big_inverse (i j : nat) : Z :=
  if (i <? 8)%nat && (j <? 8)%nat then 1260 * nth j (nth i E8_inverse []) 0
  else if (8 <=? i)%nat && (i <? 16)%nat && (8 <=? j)%nat && (j <? 16)%nat then A_inverse 8 (i - 8) (j - 8)
  else if (16 <=? i)%nat && (i <? 22)%nat && (16 <=? j)%nat && (j <? 22)%nat then A_inverse 6 (i - 16) (j - 16)
  else if (22 <=? i)%nat && (i <? 26)%nat && (22 <=? j)%nat && (j <? 26)%nat then A_inverse 4 (i - 22) (j - 22)
  else if (26 <=? i)%nat && (26 <=? j)%nat then A_inverse 3 (i - 26) (j - 26) else 0.
Lemma big_inverse_ok : feq 29 29 (fmul 29 (block_diagonal big_type) big_inverse) (fun i j => 1260 * delta i j).
Proof.
  assert (H : forallb (fun i => forallb (fun j => fmul 29 (block_diagonal big_type) big_inverse i j =? 1260 * delta i j) (seq 0 29)) (seq 0 29) = true) by (vm_compute; reflexivity).
  intros i j Hi Hj. rewrite forallb_forall in H. specialize (H i). rewrite forallb_forall in H. apply Z.eqb_eq. apply H; apply in_seq; lia.
Qed.
Lemma inverses_scale n C G g c d : feq n n (fmul n C G) (fun i j => c * delta i j) -> feq n n (fmul n g C) (fun i j => d * delta i j) ->
  forall i j, (i < n)%nat -> (j < n)%nat -> c * g i j = d * G i j.
Proof.
  intros H1 H2 i j Hi Hj. assert (U1 : fmul n g (fmul n C G) i j = c * g i j).
  { rewrite (fmul_ext_col n g _ (fun i j => c * delta i j) i j) by (intros; apply H1; assumption).
    unfold fmul. rewrite (zsum_ext n _ (fun x => c * (g i x * delta x j))) by (intros; lia). rewrite zsum_mul_l. f_equal. apply (fmul_id_r n g i j Hj). }
  rewrite <- fmul_assoc in U1. rewrite <- U1. rewrite (fmul_ext_row n _ (fun i j => d * delta i j) G i j) by (intros; apply H2; assumption).
  unfold fmul. rewrite (zsum_ext n _ (fun x => d * (delta i x * G x j))) by (intros; lia). rewrite zsum_mul_l. f_equal. apply (fmul_id_l n G i j Hi).
Qed.
Theorem C114_short_refuted : exists lt q r A B, valid_type lt /\ (r <= 32)%nat /\ p_of_type lt false = Ok q /\ based r r A B q /\
  forall g d, 0 < d -> is_inverse r (pairings r A B) g d -> exists i j, (i < r)%nat /\ (j < r)%nat /\ short16 (g i j) = false.
Proof.
  assert (V : valid_type big_type) by (repeat constructor; cbn; lia).
  destruct (C111_type big_type false V) as (q & A & B & E & _ & Bd & Pr & _); [cbn; lia|].
  change (total (derived big_type)) with 29%nat in *. change (total big_type) with 29%nat in *. change (derived big_type) with big_type in *.
  exists big_type, q, 29%nat, A, B. split; [exact V|]. split; [lia|]. split; [exact E|]. split; [exact Bd|].
  intros g d Pd (_ & I2). exists 3%nat, 3%nat. split; [lia|]. split; [lia|].
  (* 1260 g = d G *)
  assert (U : forall i j, (i < 29)%nat -> (j < 29)%nat -> 1260 * g i j = d * big_inverse i j).
  { apply (inverses_scale 29 (pairings 29 A B)); [|exact I2]. intros i j Hi Hj. rewrite <- (big_inverse_ok i j Hi Hj). apply fmul_ext_row. intros x Hx. apply Pr; assumption. }
  pose proof (U 3%nat 3%nat ltac:(lia) ltac:(lia)) as U0. change (big_inverse 3 3) with 37800 in U0.
  pose proof (U 8%nat 15%nat ltac:(lia) ltac:(lia)) as U1. change (big_inverse 8 15) with 140 in U1.
  pose proof (U 16%nat 21%nat ltac:(lia) ltac:(lia)) as U2. change (big_inverse 16 21) with 180 in U2.
  pose proof (U 22%nat 25%nat ltac:(lia) ltac:(lia)) as U3. change (big_inverse 22 25) with 252 in U3.
  pose proof (U 26%nat 28%nat ltac:(lia) ltac:(lia)) as U4. change (big_inverse 26 28) with 315 in U4.
  assert (Dv : (1260 | d)).
  { assert (D9 : (9 | d)) by (exists (g 8%nat 15%nat); lia). assert (D7 : (7 | d)) by (exists (g 16%nat 21%nat); lia). assert (D5 : (5 | d)) by (exists (g 22%nat 25%nat); lia). assert (D4 : (4 | d)) by (exists (g 26%nat 28%nat); lia).
    assert (T : forall a b, Z.gcd a b = 1 -> (a | d) -> (b | d) -> (a * b | d)).
    { intros a b G [x Ex] Hb. rewrite Ex in Hb. assert (Hb' : (b | x)) by (apply (Z.gauss b a x); [rewrite Z.mul_comm; exact Hb|rewrite Z.gcd_comm; exact G]). destruct Hb' as [y ->]. exists y. lia. }
    change 1260 with (9 * 7 * (5 * 4)). apply T; [reflexivity|apply T; [reflexivity|exact D9|exact D7]|apply T; [reflexivity|exact D5|exact D4]]. }
  destruct Dv as [k ->]. unfold short16. apply andb_false_iff. right. apply Z.ltb_ge. nia.
Qed.

(** * C115: radicals and status *)
(** bases of the weights that vanish on all coroots, and of the coweights that vanish on all roots *)
Theorem C115_radicals (fits : Z -> bool) (r n : nat) (A B : nat -> nat -> Z) (p : predatum) : based r n A B p ->
  gives (radicals fits p) (fun '(c, q) => exists v w, columns_are r c v /\ columns_are r q w /\
    basis_of r (length c) v (orthogonal r n B) /\ basis_of r (length q) w (orthogonal r n A)) (overflows fits).
Proof. intros Bd. destruct (based_independent r n A B p Bd) as (I1 & I2 & gd). destruct Bd as (HA & HB & _). exact (radicals_run fits r n A B p HA HB gd I1 I2). Qed.
(** the flags tell whether the lattices of roots and of coroots are saturated *)
Theorem C115_status (fits : Z -> bool) (r n : nat) (A B : nat -> nat -> Z) (p : predatum) (d : datum) : datum_of fits r n A B p d ->
  gives (status fits d) (fun '(ad, sc) => (ad = true <-> saturated r n A) /\ (sc = true <-> saturated r n B)) (overflows fits).
Proof. intros K. apply datum_of_ok in K. apply (status_run r n A B p d K fits). Qed.
Example C115_ex : datum_of i32 3 2 gA gB gsp D /\ radicals i32 gsp = Ok ([[0; 0; 1]], [[1; 1; 2]]) /\ status i32 D = Ok (true, true) /\
  based 2 1 (ent 1 [2; 0]) (ent 1 [1; 0]) sl2 /\ (run d <- root_datum i32 sl2; status i32 d) = Ok (false, true).
Proof. split; [apply datum_gsp|]. split; [vm_compute; reflexivity|]. split; [vm_compute; reflexivity|]. split; [exact based_sl2|]. vm_compute. reflexivity. Qed.

(** * C116: automorphisms permute the roots *)
(** if the matrix sends simple root i to the root with number b i, and the roots and coroots with these numbers have the
    pairings of the simple ones, then the permutation computed is that of all roots under the matrix *)
Theorem C116_permutation (fits : Z -> bool) (r n : nat) (A B : nat -> nat -> Z) (p : predatum) (d : datum) (q : matrix Z) (g : nat -> nat -> Z) (b : nat -> nat) : datum_of fits r n A B p d ->
  is_mx q r r g -> (forall i, (i < n)%nat -> (b i < num_roots (d_sys d))%nat /\ d_root d (b i) = Ok (comb r r (fcol r g) (fcol r A i))) ->
  (forall i j x y, (i < n)%nat -> (j < n)%nat -> d_root d (b i) = Ok x -> d_coroot d (b j) = Ok y -> dot r x y = pairings r A B i j) ->
  gives (rootPermutation fits d q) (fun l => length l = num_roots (d_sys d) /\ forall a, (a < num_roots (d_sys d))%nat -> exists c x, get l a = Some c /\ (c < num_roots (d_sys d))%nat /\
    d_root d a = Ok x /\ d_root d c = Ok (comb r r (fcol r g) x)) (overflows fits).
Proof.
  intros K Hq Hb Hc. apply datum_of_ok in K. eapply gives_mono.
  - apply (rootPermutation_run r n A B p d K fits q g b Hq).
    + intros i Hi. destruct (Hb i Hi) as [B1 B2]. split; [exact B1|]. rewrite (proj1 (d_root_run r n A B p d K _ B1)) in B2. injection B2 as B2. symmetry. exact B2.
    + intros i j Hi Hj. apply (Hc i j _ _ Hi Hj); [apply (d_root_run r n A B p d K); apply Hb; exact Hi|apply (d_root_run r n A B p d K); apply Hb; exact Hj].
  - intros l (Ll & Hl). split; [exact Ll|]. intros a Ha. destruct (Hl a Ha) as (c & G & Hc' & Q). exists c, (comb r n (fcol r A) (root_at (d_sys d) a)). split; [exact G|]. split; [exact Hc'|].
    split; [apply (d_root_run r n A B p d K); exact Ha|]. rewrite Q. apply (d_root_run r n A B p d K). exact Hc'.
Qed.
(** the reflection for the first simple root *)
Definition refl0 : matrix Z := mk_mat 3 3 [0; 1; 0; 1; 0; 0; 0; 0; 1].
Example C116_ex : datum_of i32 3 2 gA gB gsp D /\ is_mx refl0 3 3 (ent 3 (mdata refl0)) /\
  (forall i, (i < 2)%nat -> (nth i [3; 7] 0 < num_roots (d_sys D))%nat /\ d_root D (nth i [3; 7]%nat 0%nat) = Ok (comb 3 3 (fcol 3 (ent 3 (mdata refl0))) (fcol 3 gA i))) /\
  (forall i j x y, (i < 2)%nat -> (j < 2)%nat -> d_root D (nth i [3; 7]%nat 0%nat) = Ok x -> d_coroot D (nth j [3; 7]%nat 0%nat) = Ok y -> dot 3 x y = pairings 3 gA gB i j) /\
  rootPermutation i32 D refl0 = Ok [2; 1; 0; 4; 3; 7; 6; 5]%nat.
Proof.
  split; [apply datum_gsp|]. split.
  { split; [reflexivity|]. split; [reflexivity|]. split; [reflexivity|]. intros i j Hi Hj. do 3 (destruct i as [|i]; [do 3 (destruct j as [|j]; [reflexivity|]); lia|]). lia. }
  split; [intros [|[|i]] Hi; [vm_compute; split; [lia|reflexivity]|vm_compute; split; [lia|reflexivity]|lia]|]. split.
  - intros [|[|i]] [|[|j]] x y Hi Hj; try lia; vm_compute; intros Q1 Q2; injection Q1 as <-; injection Q2 as <-; reflexivity.
  - vm_compute. reflexivity.
Qed.

Print Assumptions C108_dominant.
Print Assumptions C108_codominant.
Print Assumptions C108_make_refuted.
Print Assumptions C110_dual.
Print Assumptions C110_back.
Print Assumptions C110_sub.
Print Assumptions C111_type.
Print Assumptions C112_derived.
Print Assumptions C112_coderived.
Print Assumptions C113_quotient.
Print Assumptions C114_fundamental.
Print Assumptions C114_short_refuted.
Print Assumptions C115_radicals.
Print Assumptions C115_status.
Print Assumptions C116_permutation.
