(** C138-C142: elements of finite order of a torus. *)

From Coq Require Import List Arith ZArith QArith Bool Lia.
From Verif Require Import RootModel.
From Verif Require Import F2Model F2Spec F2Proofs.
From Verif Require Import VecModel RunModel RunProofs MatModel MatSpec MatProofs ArithModel RatVecModel RatVecSpec RatVecProofs RatVecOps RootSpec DatModel DatProps
  YvModel YvSpec YvProofs YvOps YvAct YvLog.
Import ListNotations.
Open Scope Z_scope.

(** * C138: constructors, comparison, logarithms *)
Theorem C138_one n : is_torus (te_one n) n (fun _ => 0%Q).
Proof.
  exists (fun _ => 0%Q). split; [apply zero_ok|]. intros i Hi. split; [split; [apply Qle_refl|reflexivity]|]. apply even_refl. reflexivity.
Qed.
Theorem C138_exp_pi r n q : is_rv r n q -> gives (exp_pi r) (fun t => is_torus t n q /\ den t = den r) (large_den r).
Proof. exact (make_false r n q). Qed.
Theorem C138_exp_2pi r n q : is_rv r n q -> gives (exp_2pi r) (fun t => is_torus t n (fun i => 2 * q i)%Q)
  (fun e => e = Overflow /\ (2 ^ 62 <= den r \/ exists i, (i < n)%nat /\ ~ holds (den r) (2 * q i)%Q)).
Proof. exact (make_true r n q). Qed.
Theorem C138_reduce t n q : is_rv t n q -> gives (te_reduce t) (fun u => is_torus u n q /\ den u = den t) (large_den t).
Proof. exact (reduce_ok t n q). Qed.
(** equality of reduced forms is equality of the elements *)
Theorem C138_equal t u n p q : is_torus t n p -> is_torus u n q -> gives (te_eqb t u) (fun b => b = true <-> forall i, (i < n)%nat -> even_apart (p i) (q i)) never.
Proof. exact (torus_same t u n p q). Qed.
Theorem C138_log_pi t n q norm : is_torus t n q -> gives (log_pi t norm) (fun v => is_torus v n q /\ (norm = true -> reduced v)) never.
Proof.
  intros T. unfold log_pi. destruct norm; [|split; [exact T|discriminate]]. pose proof T as (p & R & H). eapply gives_conv; [| |apply (normalize_ok t n p R)].
  - intros v (RV1 & Rd & _). split; auto. exists p. auto.
  - intros e (_ & HI). destruct (proj1 (torus_iff t n q) T) as (_ & x & V & HX). destruct (proj1 (in_get _ _ _ _ V) HI) as (i & Hi & E). destruct (HX i Hi) as (_ & B & _). rewrite E in B. lia.
Qed.
Theorem C138_log_2pi t n q : is_torus t n q -> gives (log_2pi t) (fun v => reduced v /\ exists p, is_rv v n p /\
    forall i, (i < n)%nat -> (0 <= p i < 1)%Q /\ exists z, (p i - q i / 2 == inject_Z z)%Q) (large_den t).
Proof. exact (log_2pi_ok t n q). Qed.
Lemma rv_vec (l : list Z) d : 0 < d < 2 ^ 63 -> Forall (fun z => - 2 ^ 63 <= z < 2 ^ 63) l -> is_rv (mk_rv l d) (length l) (fun i => inject_Z (nth i l 0%Z) / inject_Z d)%Q.
Proof.
  intros Hd Hl. apply (is_rv_intro l d _ (fun i => nth i l 0)); [apply is_vec_some|exact Hd|]. intros i Hi. split.
  - apply (proj1 (Forall_forall _ _) Hl). apply nth_In. exact Hi.
  - field. apply inj_neq0. lia.
Qed.
Definition tq (l : list Z) (d : Z) : nat -> Q := fun i => (inject_Z (nth i l 0%Z) / inject_Z d)%Q.
Lemma torus_vec l d : 0 < d < 2 ^ 62 -> Forall (fun z => 0 <= z < 2 * d) l -> is_torus (mk_rv l d) (length l) (tq l d).
Proof.
  intros Hd Hl. apply torus_iff. cbn [num den]. split; [lia|]. exists (fun i => nth i l 0). split; [apply is_vec_some|]. intros i Hi.
  pose proof (proj1 (Forall_forall _ _) Hl _ (nth_In l 0 Hi)) as B. cbn beta in B. split; [unfold in64; lia|]. split; [lia|]. exists 0. unfold tq. change (inject_Z (2 * 0)) with 0%Q. field. apply inj_neq0. lia.
Qed.
Ltac bounds := repeat (apply Forall_cons; [lia|]); apply Forall_nil.
Example C138_ex : is_rv (mk_rv [1; -3; 29] 6) 3 (tq [1; -3; 29] 6) /\ exp_2pi (mk_rv [1; -3; 5] 6) = Ok (mk_rv [1; 3; 5] 3) /\ exp_pi (mk_rv [1; -3; 29] 6) = Ok (mk_rv [1; 9; 5] 6) /\
  is_torus (mk_rv [1; 3; 5] 3) 3 (tq [1; 3; 5] 3) /\ log_2pi (mk_rv [1; 3; 5] 3) = Ok (mk_rv [1; 3; 5] 6) /\ te_reduce (mk_rv [-1; 19; 5] 6) = Ok (mk_rv [11; 7; 5] 6) /\
  te_eqb (mk_rv [2; 6] 4) (mk_rv [1; 3] 2) = Ok true /\ te_eqb (mk_rv [2; 6] 4) (mk_rv [1; 1] 2) = Ok false /\ log_pi (mk_rv [2; 6] 4) true = Ok (mk_rv [1; 3] 2) /\
  exp_pi (mk_rv [1] (2 ^ 62)) = Fail Overflow.
Proof.
  split; [apply (rv_vec [1; -3; 29] 6); [lia|bounds]|]. split; [vm_compute; reflexivity|]. split; [vm_compute; reflexivity|]. split; [apply (torus_vec [1; 3; 5] 3); [lia|bounds]|].
  split; [vm_compute; reflexivity|]. split; [vm_compute; reflexivity|]. split; [vm_compute; reflexivity|]. split; [vm_compute; reflexivity|]. split; [vm_compute; reflexivity|]. vm_compute. reflexivity.
Qed.

(** * C139: the group operations *)
Theorem C139_add t u n p q : is_torus t n p -> is_torus u n q -> Z.lcm (den t) (den u) < 2 ^ 61 ->
  gives (te_add t u) (fun r => is_torus r n (fun i => p i + q i)%Q /\ den r < 2 ^ 61) never.
Proof. exact (te_add_ok t u n p q). Qed.
Theorem C139_sub t u n p q : is_torus t n p -> is_torus u n q -> Z.lcm (den t) (den u) < 2 ^ 61 ->
  gives (te_sub t u) (fun r => is_torus r n (fun i => p i - q i)%Q /\ den r < 2 ^ 61) never.
Proof. exact (te_sub_ok t u n p q). Qed.
Theorem C139_add_part dim t n q v : (n <= dim)%nat -> is_torus t n q -> sized n v -> den t < 2 ^ 62 ->
  gives (te_add_part dim t v) (fun u => is_torus u n (fun i => q i + bitQ (data v) i)%Q /\ den u = den t) never.
Proof. exact (te_add_part_ok dim t n q v). Qed.
(** subtracting what was added gives back the element *)
Theorem C139_add_sub t u n p q : is_torus t n p -> is_torus u n q -> den t * den u * den u < 2 ^ 61 ->
  gives (te_add t u) (fun r => Z.lcm (den r) (den u) < 2 ^ 61 -> gives (te_sub r u) (fun s => te_eqb s t = Ok true) never) never.
Proof.
  intros T U B. assert (L : Z.lcm (den t) (den u) < 2 ^ 61).
  { destruct (proj1 (torus_iff t n p) T) as (D0 & _). destruct (proj1 (torus_iff u n q) U) as (D1 & _).
    assert (Z.lcm (den t) (den u) <= den t * den u); [|nia]. apply Z.divide_pos_le; [nia|]. apply Z.lcm_least; [exists (den u); lia|exists (den t); lia]. }
  eapply gives_mono; [apply (te_add_ok t u n p q T U L)|]. intros r (R & _) L2. eapply gives_mono; [apply (te_sub_ok r u n _ q R U L2)|]. intros s (Hs & _).
  pose proof (torus_same s t n _ p Hs T) as G. destruct (te_eqb s t); [|contradiction]. cbn in G. f_equal. apply G. intros i Hi. apply even_refl. ring.
Qed.
Example C139_ex : is_torus (mk_rv [1; 9; 5] 6) 3 (tq [1; 9; 5] 6) /\ is_torus (mk_rv [1; 2; 7] 4) 3 (tq [1; 2; 7] 4) /\ Z.lcm 6 4 < 2 ^ 61 /\
  te_add (mk_rv [1; 9; 5] 6) (mk_rv [1; 2; 7] 4) = Ok (mk_rv [5; 0; 7] 12) /\ te_sub (mk_rv [1; 9; 5] 6) (mk_rv [1; 2; 7] 4) = Ok (mk_rv [23; 12; 13] 12) /\
  sized 3 (mk_bv 3 3) /\ te_add_part 32 (mk_rv [1; 9; 5] 6) (mk_bv 3 3) = Ok (mk_rv [7; 3; 5] 6).
Proof.
  split; [apply (torus_vec [1; 9; 5] 6); [lia|bounds]|]. split; [apply (torus_vec [1; 2; 7] 4); [lia|bounds]|]. split; [vm_compute; reflexivity|].
  split; [vm_compute; reflexivity|]. split; [vm_compute; reflexivity|]. split; [|vm_compute; reflexivity]. split; [|reflexivity].
  intros i Hi. unfold coord. apply N.bits_above_log2. cbn. lia.
Qed.

(** * C140: evaluation *)
Theorem C140_eval_at t n q alpha y : is_torus t n q -> is_vec alpha n y -> ample n y t -> gives (eval_at t alpha) (fun r => is_mod2 r (pairQ n y q)) never.
Proof. exact (eval_at_ok t n q alpha y). Qed.
Theorem C140_eval_bits dim t n q alpha : (n <= dim)%nat -> is_torus t n q -> sized n alpha -> ample n (bitZ (data alpha)) t ->
  gives (eval_bits dim t alpha) (fun r => is_mod2 r (qsum n (fun i => bitQ (data alpha) i * q i)%Q)) never.
Proof. exact (eval_bits_ok dim t n q alpha). Qed.
Theorem C140_negative_at t n q alpha y z : is_torus t n q -> is_vec alpha n y -> ample n y t -> (pairQ n y q == inject_Z z)%Q ->
  negative_at t alpha = Ok (Z.odd z).
Proof. exact (negative_ok t n q alpha y z). Qed.
(** central elements: those on which all given roots take the value 1 *)
Theorem C140_central narrow alpha t n m f q : (forall z, Z.abs z < 2 ^ 31 -> narrow z = z) -> is_torus t n q -> is_mx alpha n m f -> den t < 2 ^ 62 ->
  (forall j, (j < m)%nat -> zsum n (fun i => Z.abs (f i j)) * (2 * den t) < 2 ^ 31) ->
  gives (is_central narrow alpha t) (fun b => b = true <-> forall j, (j < m)%nat -> even_apart (pairQ n (fun i => f i j) q) 0) never.
Proof. exact (central_ok narrow alpha t n m f q). Qed.
(** without the last condition this fails: the scalar product is computed in the type int *)
Theorem C140_central_refuted : exists alpha t f q, is_mx alpha 1 1 f /\ is_torus t 1 q /\ den t < 2 ^ 33 /\ f 0%nat 0%nat = 1 /\
  is_central narrow32 alpha t = Ok true /\ ~ even_apart (pairQ 1 (fun i => f i 0%nat) q) 0.
Proof.
  exists (mk_mat 1 1 [1]), (mk_rv [4294967296] 4294967297), (fun _ _ => 1), (tq [4294967296] 4294967297). split; [|split; [|split; [|split; [|split]]]].
  - split; [reflexivity|]. split; [reflexivity|]. split; [reflexivity|]. intros i j Hi Hj. replace i with 0%nat by lia. replace j with 0%nat by lia. reflexivity.
  - apply (torus_vec [4294967296] 4294967297); [lia|bounds].
  - vm_compute. reflexivity.
  - reflexivity.
  - vm_compute. reflexivity.
  - intros (z & E). unfold pairQ, qsum, tq in E. cbn [fsum nth] in E. unfold Qminus, Qeq, Qdiv, Qmult, Qplus, Qopp, Qinv, inject_Z in E. cbn in E. lia.
Qed.
Example C140_ex : ample 3 (co [2; -1; -1]) (mk_rv [1; 9; 11] 6) /\ is_torus (mk_rv [1; 9; 11] 6) 3 (tq [1; 9; 11] 6) /\
  eval_at (mk_rv [1; 9; 11] 6) [2; -1; -1] = Ok (mkr 1 1) /\ negative_at (mk_rv [1; 9; 11] 6) [2; -1; -1] = Ok true /\ eval_bits 32 (mk_rv [1; 9; 11] 6) (mk_bv 6 3) = Ok (mkr 4 3) /\
  (forall z, Z.abs z < 2 ^ 31 -> narrow32 z = z) /\ is_central narrow32 (p_roots gsp) (mk_rv [1; 1; 2] 2) = Ok true /\ is_central narrow32 (p_roots gsp) (mk_rv [1; 1; 0] 2) = Ok false.
Proof.
  split; [split; vm_compute; reflexivity|]. split; [apply (torus_vec [1; 9; 11] 6); [lia|bounds]|]. split; [vm_compute; reflexivity|]. split; [vm_compute; reflexivity|]. split; [vm_compute; reflexivity|].
  split; [|split; vm_compute; reflexivity]. intros z Hz. unfold narrow32. rewrite Z.mod_small; lia.
Qed.

(** * C141: actions *)
Theorem C141_act_by M t n f q : is_mx M n n f -> is_rv t n q -> gives (te_act_by M t) (fun u => den u = den t /\ is_rv u n (actQ n f q))
  (fun e => e = Overflow /\ exists i, (i < n)%nat /\ ~ fits_sum n (den t) (fun j => inject_Z (f i j) * q j)%Q).
Proof. exact (act_by_ok M t n f q). Qed.
Theorem C141_reflect r n A B p d a x y t q : datum_of fits64 r n A B p d -> (a < num_roots (d_sys d))%nat -> d_root d a = Ok x -> d_coroot d a = Ok y -> is_rv t r q ->
  gives (te_reflect d a t) (fun u => den u = den t /\ is_rv u r (fun i => q i - pairQ r (co y) q * inject_Z (co x i))%Q) (overflows fits64).
Proof. exact (te_reflect_ok r n A B p d a x y t q). Qed.
Theorem C141_simple_reflect r n A B p i t q : is_mx (p_roots p) r n A -> is_mx (p_coroots p) r n B -> (i < n)%nat -> is_rv t r q ->
  gives (te_simple_reflect p i t) (fun u => den u = den t /\ is_rv u r (fun k => q k - pairQ r (fun j => B j i) q * inject_Z (A k i))%Q) (overflows fits64).
Proof. exact (te_simple_ok r n A B p i t q). Qed.
(** an action, followed by reduction, depends only on the element, not on the vector representing it *)
Theorem C141_act_reduce M t n f q : is_mx M n n f -> is_torus t n q ->
  gives (run u <- te_act_by M t; te_reduce u) (fun u => is_torus u n (actQ n f q)) (fun e => e = Overflow).
Proof.
  intros HM (p & R & H). eapply gives_bind; [eapply gives_conv; [intros u Hu; exact Hu| |apply (act_by_ok M t n f p HM R)]|]; [intros e (-> & _); reflexivity|].
  intros u (_ & RU). eapply gives_conv; [| |apply (reduce_ok u n _ RU)].
  - intros v (T & _). eapply torus_ext; [exact T|]. intros i Hi. apply (pair_even n (fun j => f i j)). intros j Hj. apply H; auto.
  - intros e (-> & _). reflexivity.
Qed.
Theorem C141_left_symmetrise M t n f q : is_mx M n n f -> is_rv t n q -> den t < 2 ^ 62 ->
  gives (left_symmetrise M t) (fun u => is_torus u n (fun i => (q i + actQ n f q i) / 2)%Q) (fun e => e = Overflow).
Proof. exact (left_symm_ok M t n f q). Qed.
Theorem C141_right_symmetrise M t n f q : is_mx M n n f -> is_rv t n q -> den t < 2 ^ 62 ->
  gives (right_symmetrise M t) (fun u => is_torus u n (fun j => (q j + actQ n (fun i k => f k i) q j) / 2)%Q) (fun e => e = Overflow).
Proof. exact (right_symm_ok M t n f q). Qed.
(** the imaginary cross action adds the root when the coroot takes the value 1, and nothing when it takes the value -1 *)
Theorem C141_imaginary_cross dim r n A B p d a x y t q z : (r <= dim)%nat -> datum_of fits64 r n A B p d -> (a < num_roots (d_sys d))%nat -> d_root d a = Ok x -> d_coroot d a = Ok y ->
  is_torus t r q -> ample r (co y) t -> (pairQ r (co y) q == inject_Z z)%Q ->
  gives (imaginary_cross dim d a t) (fun u => is_torus u r (if Z.odd z then q else fun i => q i + inject_Z (co x i))%Q /\ den u = den t) never.
Proof. exact (cross_ok dim r n A B p d a x y t q z). Qed.
Example C141_ex : datum_of fits64 3 2 gA gB gsp D /\ d_root D 7 = Ok [2; 0; -1] /\ d_coroot D 7 = Ok [1; 0; 0] /\ te_reflect D 7 (mk_rv [1; 3; 5] 3) = Ok (mk_rv [-1; 3; 6] 3) /\
  te_simple_reflect gsp 1 (mk_rv [1; 3; 5] 3) = Ok (mk_rv [1; -3; 8] 3) /\ te_act_by (mk_mat 3 3 [0; 1; 0; 1; 0; 0; 0; 0; -1]) (mk_rv [1; 3; 5] 3) = Ok (mk_rv [3; 1; -5] 3) /\
  left_symmetrise (mk_mat 3 3 [0; 1; 0; 1; 0; 0; 0; 0; -1]) (mk_rv [1; 4; 5] 3) = Ok (mk_rv [5; 5; 0] 6) /\
  right_symmetrise (mk_mat 3 3 [0; 1; 0; 1; 0; 0; 1; 1; -1]) (mk_rv [1; 4; 5] 3) = Ok (mk_rv [5; 5; 0] 3) /\
  (pairQ 3 (co [1; 0; 0]%Z) (tq [0; 1; 1]%Z 1%Z) == inject_Z 0)%Q /\ imaginary_cross 32 D 7 (mk_rv [0; 1; 1] 1) = Ok (mk_rv [0; 1; 0] 1) /\ imaginary_cross 32 D 7 (mk_rv [1; 1; 1] 1) = Ok (mk_rv [1; 1; 1] 1).
Proof.
  split; [split; [exact based_gsp|vm_compute; reflexivity]|]. do 9 (split; [vm_compute; reflexivity|]). vm_compute. reflexivity.
Qed.

(** * C142: logarithms fixed by an involution *)
(** the result is fixed, and whenever the element has any fixed logarithm, the result is one *)
Theorem C142_stable_log fits as_int t xi n f q : (forall z, as_int z = z) -> is_mx xi n n f -> feq n n (fmul n f f) delta -> is_torus t n q ->
  gives (stable_log fits as_int t xi) (fun v => exists s, is_rv v n s /\ (forall i, (i < n)%nat -> (actQ n f s i == s i)%Q) /\
    forall h, (forall i, (i < n)%nat -> (actQ n f h i == h i)%Q) -> (forall i, (i < n)%nat -> even_apart (2 * h i) (q i)) ->
      forall i, (i < n)%nat -> even_apart (2 * s i) (q i)) (fun e => e = Overflow).
Proof. exact (stable_log_ok fits as_int t xi n f q). Qed.
(** an element fixed by the involution need not have a fixed logarithm, and the result is then not a logarithm of it *)
Theorem C142_stable_refuted : exists t xi f q v s, is_mx xi 1 1 f /\ feq 1 1 (fmul 1 f f) delta /\ is_torus t 1 q /\
  (forall i, (i < 1)%nat -> even_apart (actQ 1 f q i) (q i)) /\ stable_log i32 (fun z => z) t xi = Ok v /\ is_rv v 1 s /\ ~ even_apart (2 * s 0%nat) (q 0%nat).
Proof.
  exists (mk_rv [1] 1), (mk_mat 1 1 [-1]), (fun _ _ => -1), (tq [1] 1), (mk_rv [0] 2), (tq [0] 2). split; [|split; [|split; [|split; [|split; [|split]]]]].
  - split; [reflexivity|]. split; [reflexivity|]. split; [reflexivity|]. intros i j Hi Hj. replace i with 0%nat by lia. replace j with 0%nat by lia. reflexivity.
  - intros i j Hi Hj. replace i with 0%nat by lia. replace j with 0%nat by lia. reflexivity.
  - apply (torus_vec [1] 1); [lia|bounds].
  - intros i Hi. replace i with 0%nat by lia. exists (-1). vm_compute. reflexivity.
  - vm_compute. reflexivity.
  - apply (rv_vec [0] 2); [lia|bounds].
  - intros (z & E). unfold tq in E. cbn [nth] in E. unfold Qminus, Qeq, Qdiv, Qmult, Qplus, Qopp, Qinv, inject_Z in E. cbn -[Z.mul Z.add Z.opp] in E. lia.
Qed.
Definition swap3 (i j : nat) : Z := nth (3 * i + j) [0; 1; 0; 1; 0; 0; 0; 0; -1] 0.
Example C142_ex : is_mx (mk_mat 3 3 [0; 1; 0; 1; 0; 0; 0; 0; -1]) 3 3 swap3 /\ feq 3 3 (fmul 3 swap3 swap3) delta /\ is_torus (mk_rv [5; 5; 0] 3) 3 (tq [5; 5; 0] 3) /\
  stable_log i32 (fun z => z) (mk_rv [5; 5; 0] 3) (mk_mat 3 3 [0; 1; 0; 1; 0; 0; 0; 0; -1]) = Ok (mk_rv [5; 5; 0] 6).
Proof.
  split; [|split; [|split; [apply (torus_vec [5; 5; 0] 3); [lia|bounds]|vm_compute; reflexivity]]].
  - split; [reflexivity|]. split; [reflexivity|]. split; [reflexivity|]. intros i j Hi Hj. do 3 (destruct i as [|i]; [do 3 (destruct j as [|j]; [reflexivity|]); lia|]). lia.
  - intros i j Hi Hj. do 3 (destruct i as [|i]; [do 3 (destruct j as [|j]; [reflexivity|]); lia|]). lia.
Qed.

Print Assumptions C138_one.
Print Assumptions C138_exp_pi.
Print Assumptions C138_exp_2pi.
Print Assumptions C138_reduce.
Print Assumptions C138_equal.
Print Assumptions C138_log_pi.
Print Assumptions C138_log_2pi.
Print Assumptions C139_add.
Print Assumptions C139_sub.
Print Assumptions C139_add_part.
Print Assumptions C139_add_sub.
Print Assumptions C140_eval_at.
Print Assumptions C140_eval_bits.
Print Assumptions C140_negative_at.
Print Assumptions C140_central.
Print Assumptions C140_central_refuted.
Print Assumptions C141_act_by.
Print Assumptions C141_reflect.
Print Assumptions C141_simple_reflect.
Print Assumptions C141_act_reduce.
Print Assumptions C141_left_symmetrise.
Print Assumptions C141_right_symmetrise.
Print Assumptions C141_imaginary_cross.
Print Assumptions C142_stable_log.
Print Assumptions C142_stable_refuted.
