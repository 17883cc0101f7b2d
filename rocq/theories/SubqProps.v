(** Properties C67, C68: subspaces and subquotients over the field with two elements (subquotient.h, subquotient.cpp) *)

From Coq Require Import List Arith NArith ZArith Lia Bool.
From Verif Require Import VecModel RunModel RunProofs F2Model F2Spec F2Basics F2Proofs SubqModel SubqSpec SubqProofs SubqQuot.
Import ListNotations.
Open Scope nat_scope.

(** *** C67: subspaces *)

Theorem C67_of_list dim n b : n <= dim -> Forall (sized n) b -> gives (ss_of_list dim b n) (represents n (in_span (map data b))) sure.
Proof. exact (ss_of_list_ok dim n b). Qed.
Print Assumptions C67_of_list.
Theorem C67_of_matrix dim M : rows M <= dim -> is_matrix (rows M) (ncols M) (cols M) ->
  gives (ss_of_matrix dim M) (represents (rows M) (in_span (cols M))) sure.
Proof. exact (ss_of_matrix_ok dim M). Qed.
Print Assumptions C67_of_matrix.
Theorem C67_zero n : represents n (fun v => v = 0%N) (ss_zero n).
Proof. exact (ss_zero_ok n). Qed.
Print Assumptions C67_zero.
(** equal subspaces have equal descriptions *)
Theorem C67_canonical n V s s' : represents n V s -> represents n V s' -> s = s'.
Proof.
  intros (E1 & S1 & W1 & X1 & R1 & P1) (E2 & S2 & W2 & X2 & R2 & P2).
  destruct (echelon_unique _ _ _ _ R1 R2) as [ED EP]; [intros v; rewrite <- P1, <- P2; tauto|].
  destruct s as [b t r], s' as [b' t' r']. cbn [ss_basis ss_support ss_rank] in *. subst r r'. f_equal.
  - clear -S1 S2 ED. revert b' S2 ED. induction b as [|x l IH]; intros [|y m] S2 E; try discriminate; [auto|].
    inversion S1 as [|? ? [A B] S1']; inversion S2 as [|? ? [C D0] S2']; subst. cbn in E. injection E as E1 E2. f_equal; [|now apply IH].
    destruct x, y; cbn in *; congruence.
  - apply (within_ext n); auto. intros i Hi. pose proof (in_positions_of n t i) as Y1. pose proof (in_positions_of n t' i) as Y2.
    rewrite EP in Y1. apply eq_true_iff_eq. tauto.
Qed.
Print Assumptions C67_canonical.
Theorem C67_representative dim n V s v : n <= dim -> represents n V s -> sized n v ->
  gives (representative dim s v) (fun r => sized n r /\ V (N.lxor (data v) (data r)) /\
    forall p, coord (ss_support s) p = true -> coord (data r) p = false) sure.
Proof. exact (fun A B => representative_ok dim n V s A B v). Qed.
Print Assumptions C67_representative.
Theorem C67_representative_class dim n V s v w : n <= dim -> represents n V s -> sized n v -> sized n w ->
  gives (representative dim s v) (fun r => gives (representative dim s w) (fun r' => r = r' <-> V (N.lxor (data v) (data w))) sure) sure.
Proof. exact (fun A B => representative_unique dim n V s A B v w). Qed.
Print Assumptions C67_representative_class.
Theorem C67_contains dim n V s v : n <= dim -> represents n V s -> sized n v ->
  gives (ss_contains dim s v) (fun c => c = true <-> V (data v)) sure.
Proof. exact (fun A B => contains_ok dim n V s A B v). Qed.
Print Assumptions C67_contains.
Theorem C67_contains_all dim n V s m : n <= dim -> represents n V s -> Forall (sized n) m ->
  gives (ss_contains_all dim s m) (fun c => c = true <-> forall v, In v m -> V (data v)) sure.
Proof. exact (fun A B => contains_all_ok dim n V s A B m). Qed.
Print Assumptions C67_contains_all.
Theorem C67_toBasis dim n V s v : n <= dim -> represents n V s -> sized n v -> V (data v) ->
  gives (ss_toBasis dim s v) (fun w => sized (ss_dimension s) w /\ lincomb (coord (data w)) (map data (ss_basis s)) = data v /\
    ss_fromBasis dim s w = Ok v) sure.
Proof.
  intros Hn R Sv Hv. pose proof (toBasis_ok dim n V s Hn R v Sv) as G. pose proof (from_to dim n V s Hn R v Sv Hv) as G'.
  destruct (ss_toBasis dim s v) as [w|]; [|contradiction]. destruct G as (A & _ & B). split; [auto|]. split; [auto|exact G'].
Qed.
Print Assumptions C67_toBasis.
Theorem C67_fromBasis dim n V s x : n <= dim -> represents n V s -> sized (ss_dimension s) x ->
  gives (ss_fromBasis dim s x) (fun v => sized n v /\ V (data v) /\ ss_toBasis dim s v = Ok x) sure.
Proof. exact (fun A B => to_from dim n V s A B x). Qed.
Print Assumptions C67_fromBasis.
Theorem C67_basis_perp dim n V s : n <= dim -> represents n V s ->
  gives (basis_perp dim s) (fun r => Forall (sized n) r /\ length r = n - ss_dimension s /\ basis_of (perp n V) (map data r)) sure.
Proof. exact (basis_perp_ok dim n V s). Qed.
Print Assumptions C67_basis_perp.
Theorem C67_apply dim n V s M : n <= dim -> represents n V s -> rows M <= dim -> ncols M = n -> is_matrix (rows M) (ncols M) (cols M) ->
  gives (ss_apply dim s M) (represents (rows M) (direct_image (cols M) V)) sure.
Proof. exact (fun A B => apply_ok dim n V s A B M). Qed.
Print Assumptions C67_apply.
(** the space spanned by 1100, 0110, 1010 (first coordinate first) in dimension 4 *)
Example C67_ex : let s := mk_ss [mk_bv 5 4; mk_bv 6 4] 3 4 in
  ss_of_list 32 [mk_bv 3 4; mk_bv 6 4; mk_bv 5 4] 4 = Ok s /\ ss_of_matrix 32 (mk_bm [3; 6; 5]%N 4) = Ok s /\
  representative 32 s (mk_bv 11 4) = Ok (mk_bv 8 4) /\ ss_contains 32 s (mk_bv 3 4) = Ok true /\ ss_contains 32 s (mk_bv 8 4) = Ok false /\
  ss_contains_all 32 s [mk_bv 3 4; mk_bv 8 4] = Ok false /\
  ss_toBasis 32 s (mk_bv 3 4) = Ok (mk_bv 3 2) /\ ss_fromBasis 32 s (mk_bv 3 2) = Ok (mk_bv 3 4) /\
  basis_perp 32 s = Ok [mk_bv 7 4; mk_bv 8 4] /\ ss_apply 32 s (mk_bm [1; 2; 1; 4]%N 3) = Ok (mk_ss [mk_bv 3 3] 1 3).
Proof. vm_compute. repeat split. Qed.
Example C67_represents_ex : represents 4 (in_span [3; 6; 5]%N) (mk_ss [mk_bv 5 4; mk_bv 6 4] 3 4).
Proof.
  assert (H : Forall (sized 4) [mk_bv 3 4; mk_bv 6 4; mk_bv 5 4]).
  { repeat constructor; intros i Hi; cbn [data]; unfold coord; apply N.bits_above_log2; change (N.log2 3) with 1%N; change (N.log2 6) with 2%N; change (N.log2 5) with 2%N; lia. }
  exact (C67_of_list 32 4 [mk_bv 3 4; mk_bv 6 4; mk_bv 5 4] ltac:(lia) H).
Qed.

(** *** C68: subquotients *)

Theorem C68_of_lists dim n bsp bsub : n <= dim -> Forall (sized n) bsp -> Forall (sized n) bsub ->
  (forall v, in_span (map data bsub) v -> in_span (map data bsp) v) ->
  gives (sq_of_lists dim bsp bsub n) (represents_quotient n (in_span (map data bsp)) (in_span (map data bsub))) sure.
Proof. exact (sq_of_lists_ok dim n bsp bsub). Qed.
Print Assumptions C68_of_lists.
Theorem C68_zero n : represents_quotient n (fun v => v = 0%N) (fun v => v = 0%N) (sq_zero n).
Proof. exact (sq_zero_ok n). Qed.
Print Assumptions C68_zero.
Theorem C68_basis dim n V W q : n <= dim -> represents_quotient n V W q ->
  gives (sq_basis dim q) (fun r => Forall (sized n) r /\ length r = sq_dimension q /\ basis_modulo V W (map data r)) sure.
Proof.
  intros Hn R. eapply gives_mono; [exact (sq_basis_ok dim n V W q Hn R)|]. intros r [A B]. split; [auto|].
  rewrite B. split; [|exact (sq_basis_modulo dim n V W q Hn R)].
  rewrite <- (map_length data r), B. exact (chosen_size dim n V W q Hn R).
Qed.
Print Assumptions C68_basis.
Theorem C68_size dim n V W q : n <= dim -> represents_quotient n V W q -> n < 64 -> sq_size q = Ok (2 ^ N.of_nat (sq_dimension q))%N.
Proof. intros Hn R. exact (sq_size_ok dim n V W q Hn R). Qed.
Print Assumptions C68_size.
(** coordinates in the quotient: those of the combination of the basis congruent to the vector *)
Theorem C68_toBasis dim n V W q v : n <= dim -> represents_quotient n V W q -> sized n v -> V (data v) ->
  gives (sq_basis dim q) (fun r => gives (sq_toBasis dim q v) (fun w => sized (sq_dimension q) w /\
   W (N.lxor (data v) (lincomb (coord (data w)) (map data r)))) sure) sure.
Proof.
  intros Hn R Sv Hv. eapply gives_mono; [exact (sq_basis_ok dim n V W q Hn R)|]. intros r [_ ->].
  exact (sq_toBasis_ok dim n V W q Hn R v Sv Hv).
Qed.
Print Assumptions C68_toBasis.
Theorem C68_toBasis_class dim n V W q v w : n <= dim -> represents_quotient n V W q ->
  sized n v -> V (data v) -> sized n w -> V (data w) ->
  (sq_toBasis dim q v = sq_toBasis dim q w <-> W (N.lxor (data v) (data w))).
Proof. exact (fun A B => sq_toBasis_eq dim n V W q A B v w). Qed.
Print Assumptions C68_toBasis_class.
Theorem C68_toBasis_add dim n V W q v w : n <= dim -> represents_quotient n V W q ->
  sized n v -> V (data v) -> sized n w -> V (data w) ->
  gives (sq_toBasis dim q v) (fun x => gives (sq_toBasis dim q w) (fun y => sq_toBasis dim q (bv_add v w) = Ok (bv_add x y)) sure) sure.
Proof. exact (fun A B => sq_toBasis_add dim n V W q A B v w). Qed.
Print Assumptions C68_toBasis_add.
Theorem C68_to_from dim n V W q x : n <= dim -> represents_quotient n V W q -> sized (sq_dimension q) x ->
  gives (sq_fromBasis dim q x) (fun v => sized n v /\ V (data v) /\ sq_toBasis dim q v = Ok x) sure.
Proof. exact (fun A B => sq_to_from dim n V W q A B x). Qed.
Print Assumptions C68_to_from.
Theorem C68_from_to dim n V W q v : n <= dim -> represents_quotient n V W q -> sized n v -> V (data v) ->
  gives (sq_toBasis dim q v) (fun x => gives (sq_fromBasis dim q x) (fun w => sized n w /\ W (N.lxor (data v) (data w))) sure) sure.
Proof. exact (fun A B => sq_from_to dim n V W q A B v). Qed.
Print Assumptions C68_from_to.
Theorem C68_apply dim n V W q M : n <= dim -> represents_quotient n V W q -> rows M <= dim -> ncols M = n -> is_matrix (rows M) (ncols M) (cols M) ->
  gives (sq_apply dim q M) (represents_quotient (rows M) (direct_image (cols M) V) (direct_image (cols M) W)) sure.
Proof. exact (sq_apply_ok dim n V W q M). Qed.
Print Assumptions C68_apply.
(** the bits that distinguish the classes: two vectors of the space are congruent when their
    representatives agree at those positions *)
Theorem C68_significantBits dim n V W q v w : n <= dim -> represents_quotient n V W q ->
  sized n v -> V (data v) -> sized n w -> V (data w) ->
  gives (sq_mod_image dim q v) (fun r => gives (sq_mod_image dim q w) (fun r' =>
    (forall p, coord (significantBits q) p = true -> coord (data r) p = coord (data r') p) <-> W (N.lxor (data v) (data w))) sure) sure.
Proof.
  intros Hn RQ Sv Hv Sw Hw. pose proof RQ as (RV & RW & WV & _). unfold sq_mod_image.
  pose proof (representative_unique dim n W _ Hn RW v w Sv Sw) as U.
  pose proof (representative_ok dim n W _ Hn RW v Sv) as Gv. pose proof (representative_ok dim n W _ Hn RW w Sw) as Gw.
  destruct (representative dim (sq_sub q) v) as [r|]; [|contradiction]. destruct (representative dim (sq_sub q) w) as [r'|]; [|contradiction].
  cbn [gives] in *. destruct Gv as (Sr & Hr & Zr), Gw as (Sr' & Hr' & Zr'). rewrite <- U. split; [|intros ->; auto]. intros H.
  assert (Vr : V (N.lxor (data r) (data r'))).
  { apply (space_xor n V _ RV); [apply (space_xor_l n V _ RV (data r) (data v)); [auto|]|apply (space_xor_l n V _ RV (data r') (data w)); [auto|]];
    rewrite N.lxor_comm; auto. }
  apply (space_zero n V _ RV) in Vr.
  - apply N.lxor_eq in Vr. destruct Sr as [_ E1], Sr' as [_ E2], r, r'. cbn in *. congruence.
  - intros p Hp. rewrite coord_lxor. destruct (coord (ss_support (sq_sub q)) p) eqn:E.
    + rewrite Zr, Zr'; auto.
    + rewrite H; [apply xorb_nilpotent|]. unfold significantBits. rewrite coord_minus, Hp, E. auto.
Qed.
Print Assumptions C68_significantBits.
(** the matrix of the induced map *)
Theorem C68_subquotientMap dim n n' V W V' W' src dst M : n <= dim -> n' <= dim ->
  represents_quotient n V W src -> represents_quotient n' V' W' dst ->
  rows M = n' -> is_matrix n' n (cols M) ->
  (forall v, V v -> V' (image_of (cols M) v)) -> (forall v, W v -> W' (image_of (cols M) v)) ->
  gives (subquotientMap dim src dst M) (fun A => rows A = sq_dimension dst /\ is_matrix (sq_dimension dst) (sq_dimension src) (cols A) /\
    forall v, sized n v -> V (data v) -> gives (sq_toBasis dim src v) (fun x =>
      sq_toBasis dim dst (mk_bv (image_of (cols M) (data v)) n') = Ok (mk_bv (image_of (cols A) (data x)) (sq_dimension dst))) sure) sure.
Proof. exact (subquotientMap_ok dim n n' V W V' W' src dst M). Qed.
Print Assumptions C68_subquotientMap.
(** the example of the comments in the source: space (1010,0110,0001), subspace (0111) *)
Example C68_ex : let q := mk_sq (mk_ss [mk_bv 5 4; mk_bv 6 4; mk_bv 8 4] 11 4) (mk_ss [mk_bv 14 4] 2 4) 5 in
  sq_of_lists 32 [mk_bv 5 4; mk_bv 6 4; mk_bv 8 4] [mk_bv 14 4] 4 = Ok q /\ sq_dimension q = 2 /\ sq_size q = Ok 4%N /\
  sq_basis 32 q = Ok [mk_bv 5 4; mk_bv 8 4] /\ sq_toBasis 32 q (mk_bv 3 4) = Ok (mk_bv 3 2) /\
  sq_fromBasis 32 q (mk_bv 3 2) = Ok (mk_bv 13 4) /\ significantBits q = 9%N /\
  (* exchange of the first two coordinates *)
  sq_apply 32 q (mk_bm [2; 1; 4; 8]%N 4) = Ok (mk_sq (mk_ss [mk_bv 5 4; mk_bv 6 4; mk_bv 8 4] 11 4) (mk_ss [mk_bv 13 4] 1 4) 6) /\
  subquotientMap 32 q q (mk_bm [1; 7; 4; 13]%N 4) = Ok (mk_bm [1; 3]%N 2).
Proof. vm_compute. repeat split. Qed.
Example C68_represents_ex : represents_quotient 4 (in_span [5; 6; 8]%N) (in_span [14]%N)
  (mk_sq (mk_ss [mk_bv 5 4; mk_bv 6 4; mk_bv 8 4] 11 4) (mk_ss [mk_bv 14 4] 2 4) 5).
Proof.
  assert (B : forall x, In x [5; 6; 8; 14]%N -> sized 4 (mk_bv x 4)).
  { intros x I. split; [|auto]. intros i Hi. cbn [data]. unfold coord. apply N.bits_above_log2.
    cbn in I. destruct I as [<-|[<-|[<-|[<-|[]]]]]; [change (N.log2 5) with 2%N|change (N.log2 6) with 2%N|change (N.log2 8) with 3%N|change (N.log2 14) with 3%N]; lia. }
  refine (C68_of_lists 32 4 [mk_bv 5 4; mk_bv 6 4; mk_bv 8 4] [mk_bv 14 4] ltac:(lia) _ _ _).
  - repeat constructor; apply B; cbn; auto 6.
  - repeat constructor; apply B; cbn; auto 6.
  - apply span_incl. intros x [<-|[]]. exists (fun i => negb (i =? 0)). reflexivity.
Qed.
