(** Property C166: generators of square classes, compact simple roots for a torus element. *)

From Coq Require Import List Arith NArith ZArith QArith Bool Lia Sorted.
From Verif Require RootProps YvProps.
From Verif Require Import F2Model F2Spec VecModel RunModel MatModel MatSpec MatProps LatModel RatVecModel RatVecSpec RatVecProofs RatVecOps DatModel DatSpec DatMath DatProofs DatProps DfSpec DfProps TgProps
  YvModel YvSpec GtSpec GtProps QcModel QcSpec QcProofs.
Import ListNotations.
Open Scope nat_scope.

(** * C166: square classes *)
(** the elements returned are single simple roots fixed by the twist, in increasing order, and they form a basis of the
    gradings of the fixed simple roots modulo those of the fixed coweights *)
Theorem C166_square_classes dim fits as_int r n A B p d f dl g : (forall z, as_int z = z) -> (N.of_nat dim < 65536)%N -> datum_of fits r n A B p d ->
  r <= dim -> n <= dim -> length f = n -> is_mx dl r r g ->
  gives (square_classes dim fits as_int d f dl)
    (fun l => exists L, StronglySorted lt L /\ l = map (fun s => N.shiftl 1 (N.of_nat s)) L /\ class_basis r n A f g L) (overflows fits).
Proof.
  intros INT HD K Rd Nd Fl HM. apply (square_classes_run dim fits as_int INT r n A B p d f dl g (datum_of_ok _ _ _ _ _ _ _ K) Rd Nd Fl HM).
  rewrite Nat2N.inj_mul. assert (N.of_nat n <= 65535 /\ N.of_nat r <= 65535)%N as [] by lia. nia.
Qed.
(** being in the same class is an equivalence relation *)
Theorem C166_classes r n A f g c : same_class r n A f g c c /\ (forall d, same_class r n A f g c d -> same_class r n A f g d c) /\
  forall d e, same_class r n A f g c d -> same_class r n A f g d e -> same_class r n A f g c e.
Proof.
  assert (Z0 : forall h : nat -> Z, zsum r (fun j => h j * 0)%Z = 0%Z) by (intros h; apply MatLin.zsum_zero; intros; ring).
  split; [|split].
  - exists (fun _ => 0%Z). split; [intros i Hi; apply Z0|]. intros s _ _. rewrite Z0, xorb_nilpotent. reflexivity.
  - intros d (v & F & H). exists v. split; [exact F|]. intros s Hs Fs. rewrite xorb_comm. auto.
  - intros d e (v & F & H) (w & F' & H'). exists (fun j => v j + w j)%Z. split.
    + intros i Hi. rewrite <- (F i Hi), <- (F' i Hi) at 1. rewrite <- MatLin.zsum_add. apply MatLin.zsum_ext. intros; ring.
    + intros s Hs Fs. specialize (H s Hs Fs). specialize (H' s Hs Fs).
      replace (zsum r (fun j => A j s * (v j + w j))%Z) with (zsum r (fun j => A j s * v j) + zsum r (fun j => A j s * w j))%Z by (rewrite <- MatLin.zsum_add; apply MatLin.zsum_ext; intros; ring).
      rewrite Z.odd_add, <- H, <- H'. destruct (c s), (d s), (e s); reflexivity.
Qed.
(** the compact simple roots among [imag] are those at which the torus element is -1 *)
Theorem C166_compact dim fits r n A B p d t q imag z : datum_of fits r n A B p d -> n <= dim -> is_exp t r q -> within n imag ->
  (forall s, s < n -> coord imag s = true -> (pairQ r (fun j => A j s) q == inject_Z (z s))%Q) ->
  gives (torus_compact_simples dim d t imag) (fun c => forall s, coord c s = coord imag s && Z.odd (z s)) (fun e => e = Overflow).
Proof. intros K Nd. apply (torus_compact_run dim r n A B p d (datum_of_ok _ _ _ _ _ _ _ K) Nd). Qed.

(** GL(4) with its unequal rank inner class, and with the equal rank one; the simply connected group of type A3 *)
Definition id4 : matrix Z := mk_mat 4 4 [1; 0; 0; 0; 0; 1; 0; 0; 0; 0; 1; 0; 0; 0; 0; 1]%Z.
Definition id3 : matrix Z := mk_mat 3 3 [1; 0; 0; 0; 1; 0; 0; 0; 1]%Z.
Definition sl4 : predatum := mk_pre (mk_mat 3 3 [2; -1; 0; -1; 2; -1; 0; -1; 2]%Z) id3 false.
Example C166_ex : datum_of i32 4 3 (lA 4) (lA 4) (gl_pre 4) GL4 /\ length g4_f = 3 /\ is_mx (gl_rev 4) 4 4 (RootProps.ent 4 (mdata (gl_rev 4))) /\
  square_classes 32 i32 (fun z => z) GL4 g4_f (gl_rev 4) = Ok [2%N] /\ square_classes 32 i32 (fun z => z) GL4 [0; 1; 2] id4 = Ok [] /\
  (run d <- root_datum i32 sl4; square_classes 32 i32 (fun z => z) d [0; 1; 2] id3) = Ok [4%N] /\
  (run d <- root_datum i32 (p_dual sl4); square_classes 32 i32 (fun z => z) d [0; 1; 2] id3) = Ok [] /\
  ~ same_class 4 3 (lA 4) g4_f (RootProps.ent 4 (mdata (gl_rev 4))) (fun s => s =? 1) (fun _ => false) /\
  same_class 4 3 (lA 4) [0; 1; 2] (RootProps.ent 4 (mdata id4)) (fun s => s =? 1) (fun _ => false).
Proof.
  split; [exact datum_gl4|]. split; [reflexivity|]. split; [exact gl4_mx|]. split; [vm_compute; reflexivity|]. split; [vm_compute; reflexivity|].
  split; [vm_compute; reflexivity|]. split; [vm_compute; reflexivity|]. split.
  - intros (v & F & H). specialize (H 1 ltac:(lia) eq_refl). pose proof (F 1 ltac:(lia)) as F1.
    assert (E : (zsum 4 (fun j => lA 4 j 1 * v j) = 2 * v 1%nat)%Z).
    { replace (zsum 4 (fun j => lA 4 j 1 * v j))%Z with (v 1%nat - v 2%nat)%Z by (unfold zsum; cbn - [Z.mul Z.add]; repeat match goal with |- context [lA 4 ?a ?b] => let x := eval vm_compute in (lA 4 a b) in change (lA 4 a b) with x end; ring).
      unfold zsum in F1. cbn - [Z.mul Z.add] in F1. lia. }
    rewrite E, Z.odd_mul in H. discriminate.
  - exists (fun j => if j <? 2 then 1%Z else 0%Z). split; [intros i Hi; do 4 (destruct i as [|i]; [reflexivity|]); lia|].
    intros s Hs _. do 3 (destruct s as [|s]; [reflexivity|]). lia.
Qed.
Example C166_compact_ex : datum_of i32 4 3 (lA 4) (lA 4) (gl_pre 4) GL4 /\ is_exp (mk_rv [0; 1; 3; 0]%Z 1) 4 (fun i => inject_Z (nth i [0; 1; 3; 0]%Z 0%Z)) /\ within 3 6 /\
  (forall s, s < 3 -> coord 6 s = true -> (pairQ 4 (fun j => lA 4 j s) (fun i => inject_Z (nth i [0; 1; 3; 0]%Z 0%Z)) == inject_Z (nth s [-1; -2; 3]%Z 0%Z))%Q) /\
  torus_compact_simples 32 GL4 (mk_rv [0; 1; 3; 0]%Z 1) 6 = Ok 4%N /\ torus_compact_simples 32 GL4 (mk_rv [0; 1; 3; 0]%Z 1) 7 = Ok 5%N.
Proof.
  split; [exact datum_gl4|]. split.
  - exists (fun i => inject_Z (nth i [0; 1; 3; 0]%Z 0%Z)). split; [|intros i _; exists 0%Z; change (inject_Z (2 * 0)) with 0%Q; ring].
    pose proof (YvProps.rv_vec [0; 1; 3; 0]%Z 1 ltac:(lia) ltac:(repeat constructor; lia)) as (D & x & V & H). split; [exact D|]. exists x. split; [exact V|]. intros i Hi.
    destruct (H i Hi) as [H1 H2]. split; [exact H1|]. rewrite H2. unfold Qdiv. change (/ inject_Z 1)%Q with 1%Q. ring.
  - split; [intros i Hi; do 3 (destruct i as [|i]; [lia|]); apply N.bits_above_log2; cbn; lia|].
    split; [|vm_compute; auto]. intros s Hs _. do 3 (destruct s as [|s]; [reflexivity|]). lia.
Qed.

Print Assumptions C166_square_classes.
Print Assumptions C166_classes.
Print Assumptions C166_compact.
