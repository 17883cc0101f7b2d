(** Determinants of integer matrices given as functions, by way of the matrices of the
    mathcomp library over the ring Z. *)

From Coq Require Import ZArith Arith Lia Bool.
From mathcomp Require Import all_ssreflect fingroup perm ssralg matrix.
From Verif Require Import RunModel MatModel MatSpec.

Set Implicit Arguments.
Unset Strict Implicit.
Unset Printing Implicit Defensive.

(** * Z as a ring of mathcomp *)
Lemma ZR_eqP : Equality.axiom Z.eqb.
Proof. move=> x y; apply: (iffP idP); [by move/Z.eqb_eq | by move=> ->; apply/Z.eqb_eq]. Qed.
Definition ZR_enc (z : Z) : bool * nat := (Z.ltb z 0, Z.abs_nat z).
Definition ZR_dec (p : bool * nat) : Z := if p.1 then Z.opp (Z.of_nat p.2) else Z.of_nat p.2.
Lemma ZR_encK : cancel ZR_enc ZR_dec.
Proof. move=> z; rewrite /ZR_dec /ZR_enc /=; case: Z.ltb_spec => H; lia. Qed.
Definition ZR_eqm := EqMixin ZR_eqP.
Canonical ZR_eqt := EqType Z ZR_eqm.
Definition ZR_chm := CanChoiceMixin ZR_encK.
Canonical ZR_cht := ChoiceType Z ZR_chm.
Lemma ZR_addA : associative Z.add. Proof. move=> x y z; lia. Qed.
Lemma ZR_addC : commutative Z.add. Proof. move=> x y; lia. Qed.
Lemma ZR_add0 : left_id Z0 Z.add. Proof. move=> x; lia. Qed.
Lemma ZR_addN : left_inverse Z0 Z.opp Z.add. Proof. move=> x; lia. Qed.
Definition ZR_zmm := ZmodMixin ZR_addA ZR_addC ZR_add0 ZR_addN.
Canonical ZR_zmt := ZmodType Z ZR_zmm.
Lemma ZR_mulA : associative Z.mul. Proof. move=> x y z; lia. Qed.
Lemma ZR_mulC : commutative Z.mul. Proof. move=> x y; lia. Qed.
Lemma ZR_mul1 : left_id 1%Z Z.mul. Proof. move=> x; lia. Qed.
Lemma ZR_mulD : left_distributive Z.mul Z.add. Proof. move=> x y z; lia. Qed.
Lemma ZR_one_zero : 1%Z != 0%Z. Proof. by []. Qed.
Definition ZR_rm := ComRingMixin ZR_mulA ZR_mulC ZR_mul1 ZR_mulD ZR_one_zero.
Canonical ZR_rt := RingType Z ZR_rm.
Canonical ZR_crt := ComRingType Z ZR_mulC.

Import GRing.Theory.
Local Open Scope ring_scope.

Definition toM m n (f : nat -> nat -> Z) : 'M[Z]_(m, n) := \matrix_(i < m, j < n) f i j.

Lemma fsum_big n (f : nat -> Z) : zsum n f = \sum_(i < n) f i.
Proof.
elim: n => [|n IH]; first by rewrite big_ord0.
by rewrite big_ord_recr /= -IH.
Qed.
Lemma toM_mul m n p f g : toM m p (fmul n f g) = toM m n f *m toM n p g.
Proof. by apply/matrixP => i j; rewrite !mxE /fmul fsum_big; apply: eq_bigr => k _; rewrite !mxE. Qed.
Lemma toM_eq m n f g : toM m n f = toM m n g <-> feq m n f g.
Proof.
split=> H; last first.
  by apply/matrixP => i j; rewrite !mxE; apply: H; apply/ltP.
move=> i j /ltP Hi /ltP Hj.
by have := congr1 (fun A : 'M[Z]_(m, n) => A (Ordinal Hi) (Ordinal Hj)) H; rewrite !mxE.
Qed.
Lemma eqbE i j : Nat.eqb i j = (i == j).
Proof. by apply/idP/idP => [/Nat.eqb_eq ->|/eqP ->] //; apply/Nat.eqb_eq. Qed.
Lemma toM_id n : toM n n delta = 1%:M.
Proof. by apply/matrixP => i j; rewrite !mxE /delta eqbE -[(i : nat) == j]/(i == j :> 'I_n); case: eqP. Qed.
Lemma toM_tr m n f : (toM m n f)^T = toM n m (fun i j => f j i).
Proof. by apply/matrixP => i j; rewrite !mxE. Qed.

Lemma sign_even (j : nat) : (if Nat.even j then 1 else -1)%Z = (-1 : Z) ^+ j.
Proof.
elim: j => [|j IH] //.
rewrite exprS -IH Nat.even_succ -Nat.negb_even. by case: Nat.even.
Qed.
Lemma Zmm (a b c : Z) : (a * b * c)%Z = b * (a * c).
Proof. change (b * (a * c)) with (b * (a * c))%Z. lia. Qed.
Lemma det_toM n f : det n f = \det (toM n n f).
Proof.
elim: n f => [|n IH] f; first by rewrite det_mx00.
rewrite /det -/det fsum_big (expand_det_row _ ord0). apply: eq_bigr => j _.
rewrite IH sign_even !mxE /cofactor /= add0n.
have -> : row' ord0 (col' j (toM n.+1 n.+1 f)) = toM n n (fun i k => f i.+1 (if Nat.ltb k j then k else k.+1)).
  apply/matrixP => i k; rewrite !mxE; congr f.
  rewrite /= /bump. case: Nat.ltb_spec => H; case: leqP => /leP L //; exfalso; lia.
by rewrite Zmm.
Qed.

Lemma det_ext n f g : feq n n f g -> det n f = det n g.
Proof. by move=> /toM_eq H; rewrite !det_toM H. Qed.
Lemma det_delta n : det n delta = 1%Z.
Proof. by rewrite det_toM toM_id det1. Qed.
Lemma det_fmul n f g : det n (fmul n f g) = (det n f * det n g)%Z.
Proof. by rewrite !det_toM toM_mul det_mulmx. Qed.
Lemma det_transpose n f : det n (fun i j => f j i) = det n f.
Proof. by rewrite !det_toM -toM_tr det_tr. Qed.

(** adding a multiple of another row *)
Lemma det_rowop n f i k c : (i < n)%coq_nat -> (k < n)%coq_nat -> i <> k ->
  det n (fun a b => if Nat.eqb a i then (f i b + c * f k b)%Z else f a b) = det n f.
Proof.
move=> /ltP Hi /ltP Hk ne; rewrite !det_toM.
set oi := Ordinal Hi; set ok := Ordinal Hk.
have noik : oi != ok by apply/eqP => /(congr1 (@nat_of_ord n)).
rewrite (@determinant_multilinear _ n _ (toM n n f) (toM n n (fun a b => f (if Nat.eqb a i then k else a) b)) oi 1 c).
- rewrite (@determinant_alternate _ n (toM n n (fun a b => f (if Nat.eqb a i then k else a) b)) oi ok) //.
    by rewrite mul1r mulr0 addr0.
  by move=> b; rewrite !mxE /= Nat.eqb_refl; case: Nat.eqb.
- by apply/matrixP => a b; rewrite !mxE /= Nat.eqb_refl mul1r.
- apply/matrixP => a b; rewrite !mxE /= -/oi eqbE.
  by have := neq_lift oi a; rewrite eq_sym -val_eqE /= => /negbTE ->.
- apply/matrixP => a b; rewrite !mxE /= -/oi !eqbE.
  by have := neq_lift oi a; rewrite eq_sym -val_eqE /= => /negbTE ->.
Qed.
(** a row times a number *)
Lemma det_rowmul n f i c : (i < n)%coq_nat ->
  det n (fun a b => if Nat.eqb a i then (f a b * c)%Z else f a b) = (c * det n f)%Z.
Proof.
move=> /ltP Hi; rewrite !det_toM.
rewrite (@determinant_multilinear _ n _ (toM n n f) (toM n n f) (Ordinal Hi) c 0).
- by rewrite mul0r addr0.
- by apply/matrixP => a b; rewrite !mxE /= Nat.eqb_refl mul0r addr0 mulrC.
- apply/matrixP => a b; rewrite !mxE /= eqbE.
  by have := neq_lift (Ordinal Hi) a; rewrite eq_sym -val_eqE /= => /negbTE ->.
- apply/matrixP => a b; rewrite !mxE /= eqbE.
  by have := neq_lift (Ordinal Hi) a; rewrite eq_sym -val_eqE /= => /negbTE ->.
Qed.
(** exchange of two rows *)
Lemma det_rowswap n f i k : (i < n)%coq_nat -> (k < n)%coq_nat -> i <> k ->
  det n (fun a b => f (if Nat.eqb a i then k else if Nat.eqb a k then i else a) b) = (- det n f)%Z.
Proof.
move=> /ltP Hi /ltP Hk ne; rewrite !det_toM.
have -> : toM n n (fun a b => f (if Nat.eqb a i then k else if Nat.eqb a k then i else a) b)
   = perm_mx (tperm (Ordinal Hi) (Ordinal Hk)) *m toM n n f.
  rewrite -row_permE; apply/matrixP => a b; rewrite !mxE !eqbE; congr f.
  case: tpermP => [-> | -> | /eqP n1 /eqP n2] //=; first by rewrite eqxx.
    by rewrite eqxx; case: eqP => // e; case: ne.
  by move: n1 n2; rewrite -!val_eqE /= => /negbTE -> /negbTE ->.
rewrite det_mulmx det_perm odd_tperm.
have -> : Ordinal Hi != Ordinal Hk by apply/eqP => /(congr1 (@nat_of_ord n)).
by rewrite expr1 mulN1r.
Qed.
(** the same for columns *)
Lemma det_colop n f j k c : (j < n)%coq_nat -> (k < n)%coq_nat -> j <> k ->
  det n (fun a b => if Nat.eqb b j then (f a j + c * f a k)%Z else f a b) = det n f.
Proof. by move=> Hj Hk ne; rewrite -det_transpose (@det_rowop n (fun a b => f b a)) // det_transpose. Qed.
Lemma det_colmul n f j c : (j < n)%coq_nat ->
  det n (fun a b => if Nat.eqb b j then (f a b * c)%Z else f a b) = (c * det n f)%Z.
Proof. by move=> Hj; rewrite -det_transpose (@det_rowmul n (fun a b => f b a)) // det_transpose. Qed.
Lemma det_colswap n f j k : (j < n)%coq_nat -> (k < n)%coq_nat -> j <> k ->
  det n (fun a b => f a (if Nat.eqb b j then k else if Nat.eqb b k then j else b)) = (- det n f)%Z.
Proof. by move=> Hj Hk ne; rewrite -det_transpose (@det_rowswap n (fun a b => f b a)) // det_transpose. Qed.

(** invertibility over the integers *)
Lemma unimodular_det n f : unimodular n f <-> det n f = 1%Z \/ det n f = (-1)%Z.
Proof.
split=> [[g [H _]]|H].
  move/toM_eq: H; rewrite toM_mul toM_id => /(congr1 (@determinant _ n)); rewrite det_mulmx det1 -!det_toM.
  by move=> H; apply: (Z.eq_mul_1 _ (det n g)).
have e : (det n f * det n f = 1)%Z by case: H => ->.
exists (fun i j => if insub i is Some oi then if insub j is Some oj then ((det n f)%Z *: \adj (toM n n f)) (oi : 'I_n) (oj : 'I_n) else 0 else 0).
set g := (fun i j => _).
have -> : inverses n f g <-> toM n n f *m toM n n g = 1%:M /\ toM n n g *m toM n n f = 1%:M.
  by rewrite /inverses -!toM_eq !toM_mul !toM_id.
have -> : toM n n g = det n f *: \adj (toM n n f).
  by apply/matrixP => i j; rewrite [LHS]mxE /g !valK.
rewrite -scalemxAr -scalemxAl mul_mx_adj mul_adj_mx -det_toM scale_scalar_mx.
by rewrite -[(det n f : Z) * _]/(det n f * det n f)%Z e.
Qed.

(** scalar matrices and the adjugate *)
Lemma toM_scalar n (d : Z) : toM n n (fun i j => d * delta i j)%Z = d%:M.
Proof.
apply/matrixP => i j; rewrite !mxE /delta eqbE -[(i : nat) == j]/(i == j :> 'I_n).
by case: (i == j); rewrite ?mulr1n ?mulr0n ?Z.mul_1_r ?Z.mul_0_r.
Qed.
Lemma adjugate n f : exists g, feq n n (fmul n f g) (fun i j => det n f * delta i j)%Z /\
  feq n n (fmul n g f) (fun i j => det n f * delta i j)%Z.
Proof.
exists (fun i j => if insub i is Some oi then if insub j is Some oj then (\adj (toM n n f)) (oi : 'I_n) (oj : 'I_n) else 0 else 0).
set g := (fun i j => _).
have e : toM n n g = \adj (toM n n f) by apply/matrixP => i j; rewrite [LHS]mxE /g !valK.
by split; apply/toM_eq; rewrite toM_mul toM_scalar e ?mul_mx_adj ?mul_adj_mx -det_toM.
Qed.
Lemma det_scalar_ne n d : d <> 0%Z -> det n (fun i j => d * delta i j)%Z <> 0%Z.
Proof.
move=> nz; rewrite det_toM toM_scalar det_scalar; elim: n => [|n IH]; first by rewrite expr0.
by rewrite exprS => /Z.mul_eq_0 [].
Qed.

(** a block at a place on the diagonal, identity elsewhere *)
Definition embed (o r : nat) (g : nat -> nat -> Z) (i j : nat) : Z :=
  if (Nat.leb o i && Nat.ltb i (o + r)%coq_nat && Nat.leb o j && Nat.ltb j (o + r)%coq_nat)%bool
  then g (i - o)%coq_nat (j - o)%coq_nat else delta i j.
Lemma toM_ublock n1 n2 f : toM (n1 + n2) (n1 + n2) f =
  block_mx (toM n1 n1 f) (toM n1 n2 (fun i j => f i (n1 + j)%N))
           (toM n2 n1 (fun i j => f (n1 + i)%N j)) (toM n2 n2 (fun i j => f (n1 + i)%N (n1 + j)%N)).
Proof.
apply/matrixP => i j; rewrite -(splitK i) -(splitK j).
by case: (split i) => a; case: (split j) => b; rewrite ?(block_mxEul, block_mxEur, block_mxEdl, block_mxEdr) !mxE.
Qed.
Lemma det_block n1 n2 f : (forall i j, (i < n2)%coq_nat -> (j < n1)%coq_nat -> f (n1 + i)%coq_nat j = 0%Z) ->
  det (n1 + n2)%coq_nat f = (det n1 f * det n2 (fun i j => f (n1 + i)%coq_nat (n1 + j)%coq_nat))%Z.
Proof.
move=> H; rewrite -[(n1 + n2)%coq_nat]/(n1 + n2)%N !det_toM toM_ublock.
have -> : toM n2 n1 (fun i j => f (n1 + i)%N j) = 0.
  by apply/matrixP => i j; rewrite !mxE; apply: H; apply/ltP.
by rewrite det_ublock.
Qed.
