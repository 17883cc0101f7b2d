(** Properties C83 to C85: rational vectors. [is_rv v n q] says that [v] has size [n] and the entries
    q 0, ..., q (n-1), which are rational numbers of the standard library (RatVecSpec.v). *)

From Coq Require Import List Arith ZArith QArith Qabs Qfield Bool Lia Lqa.
From Verif Require Import BitsModel VecModel RunModel RunProofs MatModel MatSpec ArithModel ArithSpec RatVecModel RatVecSpec RatVecProofs RatVecOps RatVecMore.
Import ListNotations.
Open Scope Z_scope.


(** half, minus one third, with denominator 12 *)
Example rv_ex : is_rv (mk_rv [6; -4] 12) 2 (fun i => if (i =? 0)%nat then (1#2)%Q else (-(1#3))%Q).
Proof.
  split; [split; reflexivity|]. exists (fun i => nth i [6; -4] 0). split; [split; [reflexivity|]; intros [|[|i]] H; try reflexivity; lia|].
  intros [|[|i]] H; [| |lia]; (split; [split; (discriminate || reflexivity)|reflexivity]).
Qed.

(** * C83: normal form and arithmetic *)

Theorem C83_normalize v n q : is_rv v n q ->
  gives (rv_normalize v) (fun r => is_rv r n q /\ reduced r /\ (den r | den v)) (fun e => e = Overflow /\ In (- 2 ^ 63) (num v)).
Proof. apply normalize_ok. Qed.
Print Assumptions C83_normalize.
Example C83_normalize_ex : rv_normalize (mk_rv [6; -4] 12) = Ok (mk_rv [3; -2] 6) /\ rv_normalize (mk_rv [0; 0] 12) = Ok (mk_rv [0; 0] 1) /\ rv_normalize (mk_rv [] 12) = Ok (mk_rv [] 1) /\ rv_normalize (mk_rv [1] 0) = Fail Thrown.
Proof. vm_compute. repeat split; reflexivity. Qed.

Theorem C83_normal_form_unique v w n q : is_rv v n q -> is_rv w n q -> reduced v -> reduced w -> v = w.
Proof. apply reduced_unique. Qed.
Print Assumptions C83_normal_form_unique.

Theorem C83_make l n x d : is_vec l n x -> (forall i, (i < n)%nat -> in64 (x i)) -> d <> 0 -> - 2 ^ 63 < d < 2 ^ 63 ->
  gives (rv_make l d) (fun v => is_rv v n (fun i => inject_Z (x i) / inject_Z d)%Q /\ den v = Z.abs d)
    (fun e => e = Overflow /\ d < 0 /\ In (- 2 ^ 63) l).
Proof. apply make_ok. Qed.
Print Assumptions C83_make.
Example C83_make_ex : rv_make [6; -4] (-12) = Ok (mk_rv [-6; 4] 12).
Proof. vm_compute. reflexivity. Qed.

Theorem C83_zero n : is_rv (rv_zero n) n (fun _ => 0%Q).
Proof. apply zero_ok. Qed.
Print Assumptions C83_zero.

Theorem C83_of_rational l n x r : is_vec l n x -> 0 < rden r < 2 ^ 63 ->
  gives (rv_of_rational l r) (fun v => is_rv v n (fun i => inject_Z (x i) * ratval r)%Q /\ den v = rden r)
    (unfit n 1 (fun i => inject_Z (x i) * inject_Z (rnum r))%Q).
Proof. apply of_rational_ok. Qed.
Print Assumptions C83_of_rational.
Example C83_of_rational_ex : rv_of_rational [6; -4] (mkr (-1) 3) = Ok (mk_rv [-6; 4] 3).
Proof. vm_compute. reflexivity. Qed.

Theorem C83_add v w n p q : is_rv v n p -> is_rv w n q ->
  Z.lcm (den v) (den w) < 2 ^ 63 -> (forall i, (i < n)%nat -> holds (Z.lcm (den v) (den w)) (p i + q i)%Q) ->
  gives (rv_add v w) (fun r => is_rv r n (fun i => p i + q i)%Q /\ reduced r)
    (fun e => e = Overflow /\ exists i, (i < n)%nat /\ ((p i + q i) * inject_Z (Z.lcm (den v) (den w)) == inject_Z (- 2 ^ 63))%Q).
Proof. 
  intros HV HW HL HH. assert (Q : forall i, (inject_Z (1) * p i + inject_Z (1) * q i == p i + q i)%Q) by (intros i; try change (inject_Z (-1)) with (- 1)%Q; change (inject_Z 1) with 1%Q; ring).
  eapply gives_conv; [| |apply (combine_ok Z.add (1) (1) v w n p q); auto].
  - intros r (A & B). split; auto. eapply is_rv_ext; [exact A|]. intros i Hi. apply Q.
  - intros e (-> & i & Hi & E). split; auto. exists i. split; auto. rewrite <- E, (Q i). reflexivity.
  - intros a b. lia.
  - intros i Hi. destruct (HH i Hi) as (z & Hz & Ez). exists z. split; auto. rewrite Ez, (Q i). reflexivity.
 Qed.
Print Assumptions C83_add.
Example C83_add_ex : rv_add (mk_rv [6; -4] 12) (mk_rv [1; 2] 3) = Ok (mk_rv [5; 2] 6).
Proof. vm_compute. reflexivity. Qed.

Theorem C83_sub v w n p q : is_rv v n p -> is_rv w n q ->
  Z.lcm (den v) (den w) < 2 ^ 63 -> (forall i, (i < n)%nat -> holds (Z.lcm (den v) (den w)) (p i - q i)%Q) ->
  gives (rv_sub v w) (fun r => is_rv r n (fun i => p i - q i)%Q /\ reduced r)
    (fun e => e = Overflow /\ exists i, (i < n)%nat /\ ((p i - q i) * inject_Z (Z.lcm (den v) (den w)) == inject_Z (- 2 ^ 63))%Q).
Proof. 
  intros HV HW HL HH. assert (Q : forall i, (inject_Z (1) * p i + inject_Z (-1) * q i == p i - q i)%Q) by (intros i; try change (inject_Z (-1)) with (- 1)%Q; change (inject_Z 1) with 1%Q; ring).
  eapply gives_conv; [| |apply (combine_ok Z.sub (1) (-1) v w n p q); auto].
  - intros r (A & B). split; auto. eapply is_rv_ext; [exact A|]. intros i Hi. apply Q.
  - intros e (-> & i & Hi & E). split; auto. exists i. split; auto. rewrite <- E, (Q i). reflexivity.
  - intros a b. lia.
  - intros i Hi. destruct (HH i Hi) as (z & Hz & Ez). exists z. split; auto. rewrite Ez, (Q i). reflexivity.
 Qed.
Print Assumptions C83_sub.
Example C83_sub_ex : rv_sub (mk_rv [6; -4] 12) (mk_rv [1; 2] 3) = Ok (mk_rv [1; -6] 6).
Proof. vm_compute. reflexivity. Qed.

Theorem C83_negate_add v w n p q : is_rv v n p -> is_rv w n q ->
  Z.lcm (den v) (den w) < 2 ^ 63 -> (forall i, (i < n)%nat -> holds (Z.lcm (den v) (den w)) (q i - p i)%Q) ->
  gives (rv_negate_add v w) (fun r => is_rv r n (fun i => q i - p i)%Q /\ reduced r)
    (fun e => e = Overflow /\ exists i, (i < n)%nat /\ ((q i - p i) * inject_Z (Z.lcm (den v) (den w)) == inject_Z (- 2 ^ 63))%Q).
Proof. 
  intros HV HW HL HH. assert (Q : forall i, (inject_Z (-1) * p i + inject_Z (1) * q i == q i - p i)%Q) by (intros i; try change (inject_Z (-1)) with (- 1)%Q; change (inject_Z 1) with 1%Q; ring).
  eapply gives_conv; [| |apply (combine_ok (fun x y => y - x) (-1) (1) v w n p q); auto].
  - intros r (A & B). split; auto. eapply is_rv_ext; [exact A|]. intros i Hi. apply Q.
  - intros e (-> & i & Hi & E). split; auto. exists i. split; auto. rewrite <- E, (Q i). reflexivity.
  - intros a b. lia.
  - intros i Hi. destruct (HH i Hi) as (z & Hz & Ez). exists z. split; auto. rewrite Ez, (Q i). reflexivity.
 Qed.
Print Assumptions C83_negate_add.
Example C83_negate_add_ex : rv_negate_add (mk_rv [6; -4] 12) (mk_rv [1; 2] 3) = Ok (mk_rv [-1; 6] 6).
Proof. vm_compute. reflexivity. Qed.
(* the numerators of the sum over the common denominator wrap around: 3*2^59 + 3*2^59 comes out as -2^60 *)
Example C83_add_wraps : rv_add (mk_rv [3 * 2 ^ 61] 4) (mk_rv [3 * 2 ^ 61] 4) = Ok (mk_rv [- 2 ^ 60] 1).
Proof. vm_compute. reflexivity. Qed.

Theorem C83_negate v n q : is_rv v n q ->
  gives (rv_negate v) (fun r => is_rv r n (fun i => - q i)%Q /\ den r = den v) (unfit n (den v) (fun i => - q i)%Q).
Proof. apply negate_ok. Qed.
Print Assumptions C83_negate.
Example C83_negate_ex : rv_negate (mk_rv [6; -4] 12) = Ok (mk_rv [-6; 4] 12).
Proof. vm_compute. reflexivity. Qed.

Theorem C83_mul_n v n q k : is_rv v n q -> - 2 ^ 63 < k < 2 ^ 63 ->
  gives (rv_mul_n v k) (fun r => is_rv r n (fun i => inject_Z k * q i)%Q)
    (fun e => e = Overflow /\ exists i, (i < n)%nat /\ (~ holds (den v) (inject_Z k * q i)%Q \/ k < 0 /\ (k | den v) /\ ~ holds (den v) (- q i)%Q)).
Proof. apply mul_n_ok. Qed.
Print Assumptions C83_mul_n.
Example C83_mul_n_ex : rv_mul_n (mk_rv [6; -4] 12) (-3) = Ok (mk_rv [-6; 4] 4) /\ rv_mul_n (mk_rv [6; -4] 12) 5 = Ok (mk_rv [30; -20] 12) /\ rv_mul_n (mk_rv [6; -4] 12) 0 = Ok (mk_rv [0; 0] 12).
Proof. vm_compute. repeat split; reflexivity. Qed.

Theorem C83_div_n v n q k : is_rv v n q -> k <> 0 -> den v * Z.abs k < 2 ^ 63 ->
  gives (rv_div_n v k) (fun r => is_rv r n (fun i => q i / inject_Z k)%Q /\ den r = den v * Z.abs k)
    (fun e => k < 0 /\ unfit n (den v) (fun i => - q i)%Q e).
Proof. apply div_n_ok. Qed.
Print Assumptions C83_div_n.
Example C83_div_n_ex : rv_div_n (mk_rv [6; -4] 12) (-3) = Ok (mk_rv [-6; 4] 36).
Proof. vm_compute. reflexivity. Qed.

Theorem C83_mod_n v n q k : is_rv v n q -> k <> 0 -> den v * Z.abs k < 2 ^ 63 ->
  gives (rv_mod_n v k) (fun r => den r = den v /\ exists p, is_rv r n p /\
      forall i, (i < n)%nat -> (0 <= p i < inject_Z (Z.abs k))%Q /\ exists z, (q i == p i + inject_Z z * inject_Z k)%Q) never.
Proof. apply mod_n_ok. Qed.
Print Assumptions C83_mod_n.
Example C83_mod_n_ex : rv_mod_n (mk_rv [30; -4] 12) 1 = Ok (mk_rv [6; 8] 12) /\ rv_mod_n (mk_rv [30; -4] 12) (-2) = Ok (mk_rv [6; 20] 12).
Proof. vm_compute. repeat split; reflexivity. Qed.

Theorem C83_mul_r v n q r : is_rv v n q -> sint (rnum r) -> 0 < rden r < 2 ^ 63 -> den v * rden r < 2 ^ 63 ->
  gives (rv_mul_r v r) (fun u => is_rv u n (fun i => q i * ratval r)%Q)
    (fun e => e = Overflow /\ exists i, (i < n)%nat /\ (~ holds (den v * rden r) (q i * ratval r)%Q \/
        rnum r < 0 /\ (rnum r | den v * rden r) /\ ~ holds (den v) (- q i)%Q)).
Proof. apply mul_r_ok. Qed.
Print Assumptions C83_mul_r.
Example C83_mul_r_ex : rv_mul_r (mk_rv [6; -4] 12) (mkr (-2) 5) = Ok (mk_rv [-6; 4] 30).
Proof. vm_compute. reflexivity. Qed.

Theorem C83_div_r v n q r : is_rv v n q -> rnum r <> 0 -> 0 < rden r < 2 ^ 63 -> den v * Z.abs (rnum r) < 2 ^ 63 ->
  gives (rv_div_r v r) (fun u => is_rv u n (fun i => q i / ratval r)%Q)
    (fun e => e = Overflow /\ exists i, (i < n)%nat /\ (~ holds (den v * Z.abs (rnum r)) (q i / ratval r)%Q \/
        rnum r < 0 /\ ~ holds (den v) (- q i)%Q)).
Proof. apply div_r_ok. Qed.
Print Assumptions C83_div_r.
Example C83_div_r_ex : rv_div_r (mk_rv [6; -4] 12) (mkr (-2) 5) = Ok (mk_rv [-30; 20] 24).
Proof. vm_compute. reflexivity. Qed.

Theorem C83_times_r v n q r : is_rv v n q -> 0 < rden r < 2 ^ 63 -> den v * rden r < 2 ^ 63 ->
  gives (rv_times_r v r) (fun u => is_rv u n (fun i => q i * ratval r)%Q /\ den u = den v * rden r)
    (unfit n (den v) (fun i => inject_Z (rnum r) * q i)%Q).
Proof. apply times_r_ok. Qed.
Print Assumptions C83_times_r.
Example C83_times_r_ex : rv_times_r (mk_rv [6; -4] 12) (mkr (-2) 5) = Ok (mk_rv [-12; 8] 60).
Proof. vm_compute. reflexivity. Qed.

Theorem C83_over_r v n q r : is_rv v n q -> rnum r <> 0 -> 0 < rden r < 2 ^ 63 -> den v * Z.abs (rnum r) < 2 ^ 63 ->
  gives (rv_over_r v r) (fun u => is_rv u n (fun i => q i / ratval r)%Q /\ den u = den v * Z.abs (rnum r))
    (fun e => e = Overflow /\ exists i, (i < n)%nat /\ (~ holds (den v) (inject_Z (rden r) * q i)%Q \/
        rnum r < 0 /\ ~ holds (den v) (- (inject_Z (rden r) * q i))%Q)).
Proof. apply over_r_ok. Qed.
Print Assumptions C83_over_r.
Example C83_over_r_ex : rv_over_r (mk_rv [6; -4] 12) (mkr (-2) 5) = Ok (mk_rv [-30; 20] 24).
Proof. vm_compute. reflexivity. Qed.

(** * C84: comparison *)

Theorem C84_equal v w n m p q : is_rv v n p -> is_rv w m q -> gives (rv_eqb v w) (fun b => b = true <-> rv_same n p m q) never.
Proof. apply eqb_ok. Qed.
Print Assumptions C84_equal.
Example C84_equal_ex : rv_eqb (mk_rv [6; -4] 12) (mk_rv [3; -2] 6) = Ok true /\ rv_eqb (mk_rv [6; -4] 12) (mk_rv [3; 2] 6) = Ok false /\ rv_eqb (mk_rv [2 ^ 62] (2 ^ 62)) (mk_rv [1] 1) = Ok true.
Proof. vm_compute. repeat split; reflexivity. Qed.

Theorem C84_less v w n m p q : is_rv v n p -> is_rv w m q -> gives (rv_ltb v w) (fun b => b = true <-> rv_before n p m q) never.
Proof. apply ltb_ok. Qed.
Print Assumptions C84_less.
Example C84_less_ex : rv_ltb (mk_rv [6; -4] 12) (mk_rv [3; 2] 6) = Ok true /\ rv_ltb (mk_rv [6; -4] 12) (mk_rv [3; -2] 6) = Ok false /\ rv_ltb (mk_rv [7] 12) (mk_rv [1; 1] 6) = Ok true.
Proof. vm_compute. repeat split; reflexivity. Qed.

Theorem C84_order :
  (forall n p m q, rv_same n p m q \/ rv_before n p m q \/ rv_before m q n p) /\
  (forall n p m q, rv_same n p m q -> ~ rv_before n p m q) /\
  (forall n p m q k r, rv_before n p m q -> rv_before m q k r -> rv_before n p k r).
Proof. split; [exact before_trichotomy|]. split; [exact before_irrefl|exact before_trans]. Qed.
Print Assumptions C84_order.

Theorem C84_is_zero v n q : is_rv v n q -> rv_is_zero v = true <-> forall i, (i < n)%nat -> (q i == 0)%Q.
Proof. apply is_zero_ok. Qed.
Print Assumptions C84_is_zero.
Example C84_is_zero_ex : rv_is_zero (mk_rv [0; 0] 12) = true /\ rv_is_zero (mk_rv [0; 1] 12) = false.
Proof. vm_compute. repeat split; reflexivity. Qed.

(** * C85: integer vectors, scalar products and matrices *)

Theorem C85_add_vec v n q w y : is_rv v n q -> is_vec w n y ->
  gives (rv_add_vec v w) (fun r => is_rv r n (fun i => q i + inject_Z (y i))%Q /\ den r = den v)
    (fun e => e = Overflow /\ exists i, (i < n)%nat /\ (~ holds (den v) (inject_Z (y i)) \/ ~ holds (den v) (q i + inject_Z (y i))%Q)).
Proof. apply add_vec_ok. Qed.
Print Assumptions C85_add_vec.
Example C85_add_vec_ex : rv_add_vec (mk_rv [6; -4] 12) [1; -2] = Ok (mk_rv [18; -28] 12).
Proof. vm_compute. reflexivity. Qed.

Theorem C85_sub_vec v n q w y : is_rv v n q -> is_vec w n y ->
  gives (rv_sub_vec v w) (fun r => is_rv r n (fun i => q i - inject_Z (y i))%Q /\ den r = den v)
    (fun e => e = Overflow /\ exists i, (i < n)%nat /\ (~ holds (den v) (- inject_Z (y i))%Q \/ ~ holds (den v) (q i - inject_Z (y i))%Q)).
Proof. apply sub_vec_ok. Qed.
Print Assumptions C85_sub_vec.
Example C85_sub_vec_ex : rv_sub_vec (mk_rv [6; -4] 12) [1; -2] = Ok (mk_rv [-6; 20] 12).
Proof. vm_compute. reflexivity. Qed.

Theorem C85_subtract_from v n q w y : is_rv v n q -> is_vec w n y ->
  gives (rv_subtract_from v w) (fun r => is_rv r n (fun i => inject_Z (y i) - q i)%Q /\ den r = den v)
    (fun e => e = Overflow /\ exists i, (i < n)%nat /\ (~ holds (den v) (- q i)%Q \/ ~ holds (den v) (inject_Z (y i)) \/ ~ holds (den v) (inject_Z (y i) - q i)%Q)).
Proof. apply subtract_from_ok. Qed.
Print Assumptions C85_subtract_from.
Example C85_subtract_from_ex : rv_subtract_from (mk_rv [6; -4] 12) [1; -2] = Ok (mk_rv [6; -20] 12).
Proof. vm_compute. reflexivity. Qed.

Theorem C85_dot v n q w y z : is_rv v n q -> is_vec w n y -> (qsum n (fun i => inject_Z (y i) * q i) == inject_Z z)%Q ->
  gives (rv_dot v w) (fun r => r = z) (fun e => e = Overflow /\ ~ fits_sum n (den v) (fun i => inject_Z (y i) * q i)%Q).
Proof. apply dot_ok. Qed.
Print Assumptions C85_dot.
Example C85_dot_ex : rv_dot (mk_rv [6; -4] 12) [4; 3] = Ok 1.
Proof. vm_compute. reflexivity. Qed.

Theorem C85_dot_Q v n q w y : is_rv v n q -> is_vec w n y ->
  gives (rv_dot_Q v w) (fun r => lowest r /\ (ratval r == qsum n (fun i => inject_Z (y i) * q i))%Q)
    (fun e => e = Overflow /\ ~ fits_sum n (den v) (fun i => inject_Z (y i) * q i)%Q).
Proof. apply dot_Q_ok. Qed.
Print Assumptions C85_dot_Q.
Example C85_dot_Q_ex : rv_dot_Q (mk_rv [6; -4] 12) [1; 1] = Ok (mkr 1 6).
Proof. vm_compute. reflexivity. Qed.

Theorem C85_integer_diff conv v w n p q z : is_rv v n p -> is_rv w n q -> (forall i, (i < n)%nat -> (p i - q i == inject_Z (z i))%Q) ->
  gives (rv_integer_diff conv v w)
    (fun '(r, v', w') => is_vec r n (fun i => conv (z i)) /\ is_rv v' n p /\ is_rv w' n q /\ reduced v' /\ reduced w' /\ den v' = den w')
    (fun e => e = Overflow /\ (In (- 2 ^ 63) (num v) \/ In (- 2 ^ 63) (num w) \/ exists i, (i < n)%nat /\ ~ holds (den v) (p i - q i)%Q)).
Proof. apply integer_diff_ok. Qed.
Print Assumptions C85_integer_diff.
Example C85_integer_diff_ex : rv_integer_diff (fun x => x) (mk_rv [6; -4] 12) (mk_rv [-3; 4] 6) = Ok ([1; -1], mk_rv [3; -2] 6, mk_rv [-3; 4] 6).
Proof. vm_compute. reflexivity. Qed.

Theorem C85_matrix M m n f v q : is_mx M m n f -> is_rv v n q ->
  gives (rv_mat M v) (fun r => is_rv r m (fun i => qsum n (fun j => inject_Z (f i j) * q j))%Q /\ den r = den v)
    (fun e => e = Overflow /\ exists i, (i < m)%nat /\ ~ fits_sum n (den v) (fun j => inject_Z (f i j) * q j)%Q).
Proof. apply mat_ok. Qed.
Print Assumptions C85_matrix.
Example C85_matrix_ex : rv_mat (mk_mat 1 2 [2; 5]) (mk_rv [6; -4] 12) = Ok (mk_rv [-8] 12).
Proof. vm_compute. reflexivity. Qed.

Theorem C85_right M m n f v q : is_mx M m n f -> is_rv v m q ->
  gives (rv_right v M) (fun r => is_rv r n (fun j => qsum m (fun i => q i * inject_Z (f i j)))%Q /\ den r = den v)
    (fun e => e = Overflow /\ exists j, (j < n)%nat /\ ~ fits_sum m (den v) (fun i => q i * inject_Z (f i j))%Q).
Proof. apply right_ok. Qed.
Print Assumptions C85_right.
Example C85_right_ex : rv_right (mk_rv [6; -4] 12) (mk_mat 2 1 [2; 5]) = Ok (mk_rv [-8] 12).
Proof. vm_compute. reflexivity. Qed.

Theorem C85_symmetrise M n f v q : is_mx M n n f -> is_rv v n q -> den v * 2 < 2 ^ 63 ->
  let p i := qsum n (fun j => inject_Z (f i j) * q j)%Q in
  gives (rv_symmetrise M v) (fun r => is_rv r n (fun i => (q i + p i) / 2)%Q /\ reduced r)
    (fun e => e = Overflow /\ exists i, (i < n)%nat /\ (~ fits_sum n (den v) (fun j => inject_Z (f i j) * q j)%Q \/
       ~ holds (den v) (q i + p i)%Q \/ ((q i + p i) * inject_Z (den v) == inject_Z (- 2 ^ 63))%Q)).
Proof. apply symmetrise_ok. Qed.
Print Assumptions C85_symmetrise.
Example C85_symmetrise_ex : rv_symmetrise (mk_mat 2 2 [0; 1; 1; 0]) (mk_rv [6; -4] 12) = Ok (mk_rv [1; 1] 12).
Proof. vm_compute. reflexivity. Qed.

Theorem C85_symmetrise_right M n f v q : is_mx M n n f -> is_rv v n q -> den v * 2 < 2 ^ 63 ->
  let p j := qsum n (fun i => q i * inject_Z (f i j))%Q in
  gives (rv_symmetrise_right v M) (fun r => is_rv r n (fun i => (q i + p i) / 2)%Q /\ reduced r)
    (fun e => e = Overflow /\ exists j, (j < n)%nat /\ (~ fits_sum n (den v) (fun i => q i * inject_Z (f i j))%Q \/
       ~ holds (den v) (q j + p j)%Q \/ ((q j + p j) * inject_Z (den v) == inject_Z (- 2 ^ 63))%Q)).
Proof. apply symmetrise_right_ok. Qed.
Print Assumptions C85_symmetrise_right.
Example C85_symmetrise_right_ex : rv_symmetrise_right (mk_rv [6; -4] 12) (mk_mat 2 2 [1; 1; 0; -1]) = Ok (mk_rv [2; 1] 4).
Proof. vm_compute. reflexivity. Qed.
