(** Properties C167, C168: change of basis, dual component groups of real groups. *)

From Coq Require Import List Arith NArith ZArith Bool Lia.
From Verif Require RootProps DatProps2 DatSub DatFund.
From Verif Require Import RedModel LatModel RedSpec LatSpec.
From Verif Require Import F2Model F2Spec F2Basics F2Proofs F2Ops F2Kernel F2Props SubqModel SubqSpec SubqProofs SubqQuot SubqProps.
From Verif Require Import VecModel RunModel RunProofs MatModel MatSpec MatDet MatLin MatProofs RedProps LatProps RatVecProofs ToriModel ToriSpec ToriLat ToriProofs ToriProps.
From Verif Require Import RootSpec RootMath DatModel DatSpec DatMath DatProofs DatProps DfSpec DfProps PiModel PiSpec PiProofs.
Import ListNotations.
Open Scope nat_scope.

(** * C167: change of basis of a square matrix *)
(** the result [h] satisfies g h = f g; an exception is thrown if the columns of [g] are dependent, if their inverse has a denominator that
    does not fit in an int, or if there is no such integral matrix *)
Theorem C167_on_basis fits as_int M b n f g : (forall z, as_int z = z) -> is_mx M n n f -> is_mx b n n g ->
  gives (on_basis fits as_int M b) (fun N => exists h, is_mx N n n h /\ det n g <> 0%Z /\ feq n n (fmul n g h) (fmul n f g))
    (fun e => e = Thrown /\ (det n g = 0%Z \/ (exists d, least_denominator n g d /\ (2147483648 <= d)%Z) \/ ~ exists h, feq n n (fmul n g h) (fmul n f g)) \/ overflows fits e).
Proof. intros INT. exact (on_basis_run fits as_int INT M b n f g). Qed.
(** it is the only one *)
Theorem C167_unique n f g h h' : det n g <> 0%Z -> feq n n (fmul n g h) (fmul n f g) -> feq n n (fmul n g h') (fmul n f g) -> feq n n h h'.
Proof.
  intros D E E'. destruct (adjugate n g) as (k & _ & K).
  assert (C : forall x, feq n n (fmul n g x) (fmul n f g) -> feq n n (fun i j => det n g * x i j)%Z (fmul n k (fmul n f g))).
  { intros x Ex i j Hi Hj. rewrite (fmul_ext_col n k (fmul n f g) (fmul n g x)) by (intros t Ht; symmetry; now apply Ex). rewrite <- fmul_assoc.
    rewrite (fmul_ext_row n (fmul n k g) (fun i j => det n g * delta i j)%Z) by (intros t Ht; now apply K). symmetry. apply RedInverse.fmul_scalar_l. exact Hi. }
  intros i j Hi Hj. apply (Z.mul_cancel_l _ _ (det n g) D). transitivity (fmul n k (fmul n f g) i j); [now apply (C h E)|symmetry; now apply (C h' E')].
Qed.
Example C167_ex : is_mx (mk_mat 2 2 [0; 1; 1; 0]%Z) 2 2 (RootProps.ent 2 [0; 1; 1; 0]%Z) /\ is_mx (mk_mat 2 2 [2; 1; 0; 1]%Z) 2 2 (RootProps.ent 2 [2; 1; 0; 1]%Z) /\
  on_basis i32 (fun z => z) (mk_mat 2 2 [0; 1; 1; 0]%Z) (mk_mat 2 2 [2; 1; 0; 1]%Z) = Ok (mk_mat 2 2 [-1; 0; 2; 1]%Z) /\
  on_basis i32 (fun z => z) (mk_mat 2 2 [0; 1; 1; 0]%Z) (mk_mat 2 2 [3; 0; 0; 1]%Z) = Fail Thrown /\
  on_basis i32 (fun z => z) (mk_mat 2 2 [0; 1; 1; 0]%Z) (mk_mat 2 2 [2; 1; 2; 1]%Z) = Fail Thrown.
Proof. split; [is_matrix 2%nat 2%nat|]. split; [is_matrix 2%nat 2%nat|]. vm_compute. auto. Qed.

(** * C168: dual component groups *)
Section Props.
Variables (dim : nat) (fits : Z -> bool) (as_int : Z -> Z).
Hypothesis INT : forall z, as_int z = z.
Variables (r n : nat) (A B : nat -> nat -> Z) (p : predatum) (d : datum) (radical : list (list Z)) (w : nat -> nat -> Z) (th : matrix Z) (g c a : nat -> nat -> Z).
Hypothesis K : datum_of fits r n A B p d.
Hypothesis Cw : DatFund.columns_are r radical w.
Hypothesis Hw : LatSpec.basis_of r (length radical) w (orthogonal r n A).
Hypothesis HM : is_mx th r r g.
Hypothesis Inv : is_involution r g.
Hypothesis HB : on_coroots r n B g c.
Hypothesis HA : forall i j, i < r -> j < n -> zsum r (fun t => g i t * A t j)%Z = zsum n (fun t => A i t * a t j)%Z.
Hypothesis Rd : r <= dim.
Notation fails := (fun e => e = Thrown /\ (exists k, least_denominator r (fun i j => if j <? n then B i j else w i (j - n)) k /\ (2147483648 <= k)%Z) \/ overflows fits e).

Lemma Cartan_ne : det n (fun i j => zsum r (fun t => A t i * B t j)%Z) <> 0%Z.
Proof.
  destruct (DatProps2.based_independent r n A B p (proj1 K)) as (_ & _ & G). apply DatSub.Cartan_det in G. intros E. apply G. rewrite <- E. apply det_ext. intros i j Hi Hj.
  unfold pairings, dot. apply zsum_ext. intros t Ht. now rewrite !co_fcol by exact Ht.
Qed.
(** the vectors returned are a basis of the classes of weights, in the dual of the component group of the torus, whose values on the coroots
    lift to the dual of the component group of the torus of the simply connected cover of the derived group trivially *)
Theorem C168_basis : gives (dual_component_group_basis dim fits as_int th d radical)
  (fun l => exists q, dualPi0 dim fits as_int th = Ok q /\ represents_quotient r (eigen2_sum r g) (eigen2 r g 1) q /\ Forall (sized (sq_dimension q)) l /\ F2Spec.independent (map data l) /\
    forall x v, mod2 r x v -> eigen2_sum r g v -> gives (sq_toBasis dim q (mk_bv v r)) (fun y => in_span (map data l) (data y) <-> lifts r n B c x) sure) fails.
Proof. exact (dual_component_run dim fits as_int INT r n A B p d radical w th g c a (datum_of_ok _ _ _ _ _ _ _ K) Cartan_ne Cw Hw HM Inv HB HA Rd). Qed.
(** for a torus, all classes *)
Theorem C168_torus : n = 0 -> gives (dual_component_group_basis dim fits as_int th d radical)
  (fun l => exists q, dualPi0 dim fits as_int th = Ok q /\ F2Spec.independent (map data l) /\ forall y, within (sq_dimension q) y <-> in_span (map data l) y) fails.
Proof.
  intros N0. eapply gives_mono; [exact C168_basis|]. intros l (q & Eq & R & SL & IL & H). exists q. split; [exact Eq|]. split; [exact IL|]. intros y. split.
  - intros Wy. pose proof (C68_to_from dim r _ _ q (mk_bv y (sq_dimension q)) Rd R ltac:(split; [exact Wy|reflexivity])) as G.
    destruct (sq_fromBasis dim q (mk_bv y (sq_dimension q))) as [v|e]; cbn [gives] in G; [|destruct G]. destruct G as ((Wv & Zv) & Vv & Ev).
    specialize (H (fun i => Z.b2z (coord (data v) i)) (data v)). destruct v as [v z]. cbn [data bsize] in *. cbn in Zv. subst z. rewrite Ev in H. cbn [gives data] in H. apply H.
    + split; [exact Wv|]. intros i Hi. now rewrite odd_b2z.
    + exact Vv.
    + exists (fun _ => 0%Z). split; lia.
  - intros Hy. apply (span_within (sq_dimension q) (map data l)); [|exact Hy]. intros x Hx. apply in_map_iff in Hx as (u & <- & Iu). rewrite Forall_forall in SL. apply (SL u Iu).
Qed.
(** for a semisimple simply connected group, only the trivial one *)
Theorem C168_simply_connected : n = r -> unimodular r B -> gives (dual_component_group_basis dim fits as_int th d radical) (fun l => l = []) fails.
Proof.
  intros E (B' & BL & BR). eapply gives_mono; [exact C168_basis|]. intros l (q & Eq & R & SL & IL & H). subst n.
  enough (T : forall y, in_span (map data l) y -> y = 0%N).
  { destruct l as [|u l]; [reflexivity|exfalso]. cbn [map] in *.
    specialize (IL (fun i => i =? 0)). assert (X : lincomb (fun i => i =? 0) (data u :: map data l) = 0%N) by (apply T; now exists (fun i => i =? 0)).
    specialize (IL X 0 ltac:(cbn; lia)). discriminate. }
  intros y Hy. assert (Wy : within (sq_dimension q) y).
  { apply (span_within (sq_dimension q) (map data l)); [|exact Hy]. intros x Hx. apply in_map_iff in Hx as (u & <- & Iu). rewrite Forall_forall in SL. apply (SL u Iu). }
  pose proof (C68_to_from dim r _ _ q (mk_bv y (sq_dimension q)) Rd R ltac:(split; [exact Wy|reflexivity])) as G.
  destruct (sq_fromBasis dim q (mk_bv y (sq_dimension q))) as [v|e]; cbn [gives] in G; [|destruct G]. destruct G as ((Wv & Zv) & Vv & Ev).
  destruct v as [v z]. cbn [data bsize] in *. cbn in Zv. subst z.
  set (x := fun i => Z.b2z (coord v i)). assert (Mx : mod2 r x v) by (split; [exact Wv|]; intros i Hi; unfold x; now rewrite odd_b2z).
  specialize (H x v Mx Vv). rewrite Ev in H. cbn [gives data] in H. apply H in Hy as (u & Fu & Ou).
  assert (Sv : sized r (mk_bv v r)) by (split; [exact Wv|reflexivity]).
  apply (toBasis_zero dim r _ _ q (mk_bv v r) _ Rd R Sv Vv Ev). cbn [data].
  (* the weight with values u on the coroots is fixed, and congruent to x *)
  set (x' := fun i => zsum r (fun j => u j * B' j i)%Z).
  assert (PB : forall z : nat -> Z, (forall j, j < r -> zsum r (fun i => z i * B i j)%Z = 0%Z) -> forall i, i < r -> z i = 0%Z).
  { intros z Hz i Hi. transitivity (zsum r (fun t => z t * delta t i)%Z).
    - symmetry. rewrite (zsum_one r i); [unfold delta; rewrite Nat.eqb_refl; ring|exact Hi|]. intros t Ht N. unfold delta. rewrite (proj2 (Nat.eqb_neq _ _) N). ring.
    - rewrite (zsum_ext r _ (fun t => zsum r (fun j => z t * B t j * B' j i)%Z)).
      + rewrite zsum_exchange. apply zsum_zero. intros j Hj. rewrite zsum_mul_r, (Hz j Hj). ring.
      + intros t Ht. rewrite <- (BL t i Ht Hi). unfold fmul. rewrite <- zsum_mul_l. apply zsum_ext. intros; ring. }
  assert (V' : forall j, j < r -> zsum r (fun i => x' i * B i j)%Z = u j).
  { intros j Hj. unfold x'. rewrite (zsum_ext r _ (fun i => zsum r (fun t => u t * (B' t i * B i j))%Z)) by (intros i Hi; rewrite <- zsum_mul_r; apply zsum_ext; intros; ring).
    rewrite zsum_exchange. rewrite (zsum_one r j).
    - rewrite zsum_mul_l. change (zsum r (fun i => B' j i * B i j)%Z) with (fmul r B' B j j). rewrite (BR j j Hj Hj). unfold delta. rewrite Nat.eqb_refl. ring.
    - exact Hj.
    - intros t Ht N. rewrite zsum_mul_l. change (zsum r (fun i => B' t i * B i j)%Z) with (fmul r B' B t j). rewrite (BR t j Ht Hj). unfold delta. rewrite (proj2 (Nat.eqb_neq _ _) N). ring. }
  exists x'. split.
  - intros i Hi. enough (fapply r g x' i - x' i = 0)%Z by lia. apply (PB (fun i => fapply r g x' i - x' i)%Z); [|exact Hi]. intros j Hj.
    rewrite (zsum_ext r _ (fun i => fapply r g x' i * B i j + (-1) * (x' i * B i j))%Z) by (intros; ring). rewrite zsum_add, zsum_mul_l, V' by exact Hj.
    replace (zsum r (fun i => fapply r g x' i * B i j)%Z) with (zsum r (fun k => c k j * u k)%Z); [rewrite (Fu j Hj); ring|].
    unfold fapply. rewrite (zsum_ext r (fun i => zsum r (fun t => g i t * x' t) * B i j)%Z (fun i => zsum r (fun t => x' t * (g i t * B i j))%Z)) by (intros t Ht; rewrite <- zsum_mul_r; apply zsum_ext; intros; ring).
    rewrite zsum_exchange. rewrite (zsum_ext r (fun t => zsum r (fun i => x' t * (g i t * B i j)))%Z (fun t => zsum r (fun k => x' t * B t k * c k j)%Z)).
    + rewrite zsum_exchange. apply zsum_ext. intros k Hk. rewrite zsum_mul_r, V' by exact Hk. ring.
    + intros t Ht. rewrite zsum_mul_l, (HB t j Ht Hj), <- zsum_mul_l. apply zsum_ext. intros; ring.
  - split; [exact Wv|]. intros i Hi. rewrite (proj2 Mx i Hi).
    (* x - x' takes even values on all coroots *)
    destruct (choose (fun j h => (zsum r (fun i => (x i - x' i) * B i j) = 2 * h)%Z) 0%Z r) as (h & Hh).
    { intros j Hj. specialize (Ou j Hj). rewrite <- (V' j Hj) in Ou. assert (O2 : Z.even (zsum r (fun i => (x i - x' i) * B i j)%Z) = true).
      - rewrite (zsum_ext r _ (fun i => x i * B i j + (-1) * (x' i * B i j))%Z) by (intros; ring). rewrite zsum_add, zsum_mul_l. rewrite <- Z.negb_odd, Z.odd_add, Z.odd_mul, Ou. change (Z.odd (-1)) with true. rewrite andb_true_l, xorb_nilpotent. reflexivity.
      - apply Z.even_spec in O2 as (h & ->). now exists h. }
    assert (EX : (x i - x' i = 2 * zsum r (fun j => h j * B' j i))%Z).
    { enough (X : (x i - x' i - 2 * zsum r (fun j => h j * B' j i) = 0)%Z) by lia. apply (PB (fun i => x i - x' i - 2 * zsum r (fun j => h j * B' j i))%Z); [|exact Hi]. intros j Hj.
      rewrite (zsum_ext r _ (fun i => (x i - x' i) * B i j + (-2) * (zsum r (fun j => h j * B' j i) * B i j))%Z) by (intros; ring). rewrite zsum_add, zsum_mul_l, (Hh j Hj).
      replace (zsum r (fun i => zsum r (fun j => h j * B' j i) * B i j)%Z) with (h j); [ring|]. symmetry.
      rewrite (zsum_ext r _ (fun i => zsum r (fun t => h t * (B' t i * B i j))%Z)) by (intros t Ht; rewrite <- zsum_mul_r; apply zsum_ext; intros; ring).
      rewrite zsum_exchange. rewrite (zsum_one r j).
      - rewrite zsum_mul_l. change (zsum r (fun i => B' j i * B i j)%Z) with (fmul r B' B j j). rewrite (BR j j Hj Hj). unfold delta. rewrite Nat.eqb_refl. ring.
      - exact Hj.
      - intros t Ht N. rewrite zsum_mul_l. change (zsum r (fun i => B' t i * B i j)%Z) with (fmul r B' B t j). rewrite (BR t j Ht Hj). unfold delta. rewrite (proj2 (Nat.eqb_neq _ _) N). ring. }
    replace (x i) with (x' i + 2 * zsum r (fun j => h j * B' j i))%Z by lia. now rewrite Z.odd_add, Z.odd_mul, xorb_false_r.
Qed.
End Props.
(** GL(4,R): two components; its compact form: one; PGL(2,R): two; SL(2,R): one *)
Definition neg4 : matrix Z := mk_mat 4 4 [-1; 0; 0; 0; 0; -1; 0; 0; 0; 0; -1; 0; 0; 0; 0; -1]%Z.
Definition one4 : matrix Z := mk_mat 4 4 [1; 0; 0; 0; 0; 1; 0; 0; 0; 0; 1; 0; 0; 0; 0; 1]%Z.
Definition pgl2 : predatum := mk_pre (mk_mat 1 1 [1]%Z) (mk_mat 1 1 [2]%Z) false.
Definition sl2 : predatum := mk_pre (mk_mat 1 1 [2]%Z) (mk_mat 1 1 [1]%Z) false.
Definition comps (p : predatum) (th : matrix Z) : res (list bv) :=
  run d <- root_datum i32 p; run q <- radicals i32 p; dual_component_group_basis 32 i32 (fun z => z) th d (snd q).
Lemma gl4_radical : LatSpec.basis_of 4 1 (fun _ _ => 1%Z) (orthogonal 4 3 (lA 4)).
Proof.
  split.
  - intros x. split.
    + intros O. exists (fun _ => x 0). pose proof (O 0 ltac:(lia)) as O0. pose proof (O 1 ltac:(lia)) as O1. pose proof (O 2 ltac:(lia)) as O2.
      assert (E : forall j, j < 3 -> frow 4 x (lA 4) j = (x j - x (S j))%Z).
      { intros j Hj. unfold frow, zsum. do 3 (destruct j as [|j]; [cbn - [Z.mul Z.add Z.sub]; repeat match goal with |- context [lA 4 ?a ?b] => let v := eval vm_compute in (lA 4 a b) in change (lA 4 a b) with v end; ring|]). lia. }
      rewrite E in O0, O1, O2 by lia. intros i Hi. unfold fapply, zsum. cbn - [Z.mul Z.add]. do 4 (destruct i as [|i]; [lia|]). lia.
    + intros (c & Hc) j Hj. unfold frow. rewrite (zsum_ext 4 _ (fun i => c 0%nat * lA 4 i j)%Z) by (intros i Hi; rewrite (Hc i Hi); unfold fapply, zsum; cbn - [Z.mul Z.add lA]; ring).
      rewrite zsum_mul_l. replace (zsum 4 (fun i => lA 4 i j)) with 0%Z; [ring|]. do 3 (destruct j as [|j]; [reflexivity|]). lia.
  - intros c H j Hj. specialize (H 0 ltac:(lia)). unfold fapply, zsum in H. cbn - [Z.mul Z.add] in H. assert (j = 0) as -> by lia. lia.
Qed.
Example C168_ex : datum_of i32 4 3 (lA 4) (lA 4) (gl_pre 4) GL4 /\ DatFund.columns_are 4 [[1; 1; 1; 1]%Z] (fun _ _ => 1%Z) /\ LatSpec.basis_of 4 1 (fun _ _ => 1%Z) (orthogonal 4 3 (lA 4)) /\
  is_mx neg4 4 4 (RootProps.ent 4 (mdata neg4)) /\ is_involution 4 (RootProps.ent 4 (mdata neg4)) /\ on_coroots 4 3 (lA 4) (RootProps.ent 4 (mdata neg4)) (fun i j => - delta i j)%Z /\
  (forall i j, i < 4 -> j < 3 -> zsum 4 (fun t => RootProps.ent 4 (mdata neg4) i t * lA 4 t j)%Z = zsum 3 (fun t => lA 4 i t * - delta t j)%Z) /\
  dual_component_group_basis 32 i32 (fun z => z) neg4 GL4 [[1; 1; 1; 1]%Z] = Ok [mk_bv 15 4] /\
  comps (gl_pre 4) neg4 = Ok [mk_bv 15 4] /\ comps (gl_pre 4) one4 = Ok [] /\ comps (gl_pre 4) (gl_rev 4) = Ok [] /\
  comps pgl2 (mk_mat 1 1 [-1]%Z) = Ok [mk_bv 1 1] /\ comps sl2 (mk_mat 1 1 [-1]%Z) = Ok [] /\ comps (mk_pre (mk_mat 2 0 []) (mk_mat 2 0 []) false) (mk_mat 2 2 [-1; 0; 0; -1]%Z) = Ok [mk_bv 1 2; mk_bv 2 2].
Proof.
  split; [exact datum_gl4|]. split; [|split; [exact gl4_radical|]].
  - intros j Hj. destruct j as [|j]; [|cbn in Hj; lia]. exists [1; 1; 1; 1]%Z. split; [reflexivity|]. split; [reflexivity|]. intros i Hi. do 4 (destruct i as [|i]; [reflexivity|]). lia.
  - split; [is_matrix 4%nat 4%nat|]. split; [intros i j Hi Hj; do 4 (destruct i as [|i]; [do 4 (destruct j as [|j]; [reflexivity|]); lia|]); lia|].
    split; [intros i j Hi Hj; do 4 (destruct i as [|i]; [do 3 (destruct j as [|j]; [reflexivity|]); lia|]); lia|].
    split; [intros i j Hi Hj; do 4 (destruct i as [|i]; [do 3 (destruct j as [|j]; [reflexivity|]); lia|]); lia|]. vm_compute. repeat split.
Qed.

Print Assumptions C167_on_basis.
Print Assumptions C167_unique.
Print Assumptions C168_basis.
Print Assumptions C168_torus.
Print Assumptions C168_simply_connected.
