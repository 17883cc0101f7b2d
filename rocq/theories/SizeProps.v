(** Properties C51 and C61: factored numbers and orders of Weyl groups. *)

From Coq Require Import List Arith ZArith Znumtheory Lia Bool Ascii.
From Verif Require Import VecModel RunModel RunProofs SizeModel SizeSpec SizeProofs.
Import ListNotations.
Open Scope Z_scope.

(** * The table of primes *)
Theorem C51_primes cap n : 1 <= n < 2 ^ 32 ->
  gives (prime_helper cap n)
    (fun ps => (forall p, In p ps <-> prime p /\ p < n + 1) /\
       (forall i k x y, (i < k)%nat -> get ps i = Some x -> get ps k = Some y -> x < y) /\ (length ps <= cap)%nat)
    (fun er => er = Range /\ exists ps, NoDup ps /\ length ps = S cap /\ forall p, In p ps -> prime p /\ p <= n).
Proof. intros H. eapply gives_mono; [apply (prime_helper_ok cap n H)|]. intros ps [[A B] C]. auto. Qed.
Print Assumptions C51_primes.
Example C51_primes_ex : prime_helper 11 33 = Ok [2; 3; 5; 7; 11; 13; 17; 19; 23; 29; 31] /\ prime_helper 11 37 = Fail Range.
Proof. vm_compute. auto. Qed.
Theorem C51_table p : exists ps, prime_table = Ok ps /\ (In p ps <-> prime p /\ p < 37).
Proof. exists the_primes. split; [exact the_table|apply the_primes_iff]. Qed.
Print Assumptions C51_table.

(** * Numbers *)
Theorem C51_of_number fuel a : (64 <= fuel)%nat -> 0 < a < 2 ^ 64 ->
  gives (size_of fuel a) (fun '(d, said) => exists v m, stands_for d v /\ a = v * m /\ 0 < m /\
    (forall p, prime p -> (p | m) -> 37 <= p) /\ (said = true <-> m <> 1)) (fun _ => False).
Proof.
  intros Hf Ha. eapply gives_mono; [apply (size_of_ok fuel a Hf Ha)|]. intros [d said] (v & m & A & B & C & _ & D). exists v, m. auto.
Qed.
Print Assumptions C51_of_number.
Theorem C51_message a : 0 < a < 2 ^ 64 ->
  gives (size_of rounds a) (fun '(d, said) => (said = false <-> smooth a) /\ (smooth a -> stands_for d a)) (fun _ => False).
Proof.
  intros Ha. eapply gives_mono; [apply (size_of_ok rounds a); [apply Nat.le_refl|exact Ha]|].
  intros [d said] (v & m & A & B & C & _ & D & E). pose proof (stands_smooth d v A) as [P S].
  assert (X : smooth a -> m = 1).
  { intros Sm. destruct (Z.eq_dec m 1) as [|N]; [assumption|]. destruct (prime_divisor m ltac:(lia)) as (p & Hp & Dp).
    pose proof (D p Hp Dp). specialize (Sm p Hp). rewrite B in Sm. specialize (Sm (Z.divide_mul_r _ _ _ Dp)). lia. }
  split; [split|].
  - intros ->. assert (m = 1) as -> by (destruct (Z.eq_dec m 1); [assumption|]; assert (false = true) by (apply E; assumption); discriminate).
    rewrite Z.mul_1_r in B. rewrite B. exact S.
  - intros Sm. destruct said; [|reflexivity]. exfalso. apply (proj1 E eq_refl). auto.
  - intros Sm. rewrite (X Sm), Z.mul_1_r in B. rewrite B. exact A.
Qed.
Print Assumptions C51_message.
Example C51_number_ex : size_of rounds 1152 = Ok ([7; 2; 0; 0; 0; 0; 0; 0; 0; 0; 0], false) /\
  size_of rounds 9223372036854775808 = Ok ([63; 0; 0; 0; 0; 0; 0; 0; 0; 0; 0], false) /\
  size_of rounds 518 = Ok ([1; 0; 0; 1; 0; 0; 0; 0; 0; 0; 0], true).
Proof. vm_compute. auto. Qed.
(** The comment (size.cpp:50-53) promises a fatal error for a number that cannot be represented; but the error function only
    prints a message. A wrong number is constructed, and for 0 the loop does not end. *)
Theorem C51_unrepresentable_refuted : exists a d, 1 < a /\ size_of rounds a = Ok (d, true) /\ stands_for d 1.
Proof. exists 37, size_one. split; [lia|]. split; [vm_compute; reflexivity|]. apply standsb_ok. reflexivity. Qed.
Print Assumptions C51_unrepresentable_refuted.
Theorem C51_zero_refuted fuel : size_of fuel 0 = Fail Fuel.
Proof.
  unfold size_of. cbn [upto PRIMES_MAX]. unfold SizeModel.prime. rewrite the_table. cbn [bind vget get nth_error the_primes].
  rewrite extract_zero by lia. reflexivity.
Qed.
Print Assumptions C51_zero_refuted.

(** * Operations *)
Theorem C51_mul d a v w : stands_for d v -> stands_for a w -> (forall p, prime p -> ~ (p ^ 128 | v * w)) ->
  exists r, size_mul d a = Ok r /\ stands_for r (v * w).
Proof. exact (size_mul_ok d a v w). Qed.
Print Assumptions C51_mul.
Theorem C51_div d a v w : stands_for d v -> stands_for a w -> (w | v) -> exists r, size_div d a = Ok r /\ stands_for r (v / w).
Proof. exact (size_div_ok d a v w). Qed.
Print Assumptions C51_div.
Theorem C51_two_shift d v n : stands_for d v -> 0 <= n -> (forall p, prime p -> ~ (p ^ 128 | v * 2 ^ n)) ->
  exists r, two_shift d n = Ok r /\ stands_for r (v * 2 ^ n).
Proof. exact (two_shift_ok d v n). Qed.
Print Assumptions C51_two_shift.
Theorem C51_eq d a v w : stands_for d v -> stands_for a w -> (size_eq d a = true <-> v = w).
Proof.
  intros Hd Ha. unfold size_eq. destruct (list_eq_dec Z.eq_dec d a) as [E|N]; split; intros H; try reflexivity; try discriminate.
  - subst a. destruct Hd as (_ & _ & <-), Ha as (_ & _ & <-). reflexivity.
  - subst w. exfalso. apply N. apply (stands_unique d a v); assumption.
Qed.
Print Assumptions C51_eq.
Theorem C51_toUlong d v : stands_for d v -> toUlong d = Ok (v mod 2 ^ 64).
Proof. exact (toUlong_ok d v). Qed.
Print Assumptions C51_toUlong.
Theorem C51_smooth d v : stands_for d v -> 0 < v /\ smooth v.
Proof. exact (stands_smooth d v). Qed.
Print Assumptions C51_smooth.
Example C51_operations_ex : stands_for [7; 2; 0; 0; 0; 0; 0; 0; 0; 0; 0] 1152 /\ stands_for [1; 1; 0; 0; 0; 0; 0; 0; 0; 0; 0] 6 /\
  size_mul [7; 2; 0; 0; 0; 0; 0; 0; 0; 0; 0] [1; 1; 0; 0; 0; 0; 0; 0; 0; 0; 0] = Ok [8; 3; 0; 0; 0; 0; 0; 0; 0; 0; 0] /\
  size_div [7; 2; 0; 0; 0; 0; 0; 0; 0; 0; 0] [1; 1; 0; 0; 0; 0; 0; 0; 0; 0; 0] = Ok [6; 1; 0; 0; 0; 0; 0; 0; 0; 0; 0] /\
  toUlong [7; 2; 0; 0; 0; 0; 0; 0; 0; 0; 0] = Ok 1152 /\ toUlong [60; 4; 0; 0; 0; 0; 0; 0; 0; 0; 0] = Ok (2 ^ 60).
Proof. split; [apply standsb_ok; reflexivity|]. split; [apply standsb_ok; reflexivity|]. vm_compute. auto. Qed.
(** an exponent beyond 127 becomes negative *)
Theorem C51_mul_overflow_refuted : exists d a v w r, stands_for d v /\ stands_for a w /\ size_mul d a = Ok r /\ In (-128) r.
Proof.
  exists (64 :: repeat 0 10), (64 :: repeat 0 10), (2 ^ 64), (2 ^ 64), (-128 :: repeat 0 10).
  split; [apply standsb_ok; reflexivity|]. split; [apply standsb_ok; reflexivity|]. split; [vm_compute; reflexivity|]. left. reflexivity.
Qed.
Print Assumptions C51_mul_overflow_refuted.

Theorem C51_factorial n : (n < 37)%nat -> exists d, factorial n = Ok (d, false) /\ stands_for d (zfact n).
Proof. exact (factorial_ok n). Qed.
Print Assumptions C51_factorial.
Theorem C51_factorial_message n : (37 <= n)%nat -> Z.of_nat n < 2 ^ 64 ->
  gives (factorial n) (fun '(d, said) => said = true) (fun _ => False).
Proof. exact (factorial_said n). Qed.
Print Assumptions C51_factorial_message.
Example C51_factorial_ex : factorial 10 = Ok ([8; 4; 2; 1; 0; 0; 0; 0; 0; 0; 0], false) /\ zfact 10 = 3628800 /\
  factorial 0 = Ok (size_one, false).
Proof. vm_compute. auto. Qed.

(** * C61: orders of Weyl groups *)
Theorem C61_weyl_size_simple x r : is_simple x r -> (r <= 32)%nat ->
  exists d, weyl_size_simple x r = Ok (d, false) /\ stands_for d (product (degrees x r)).
Proof. intros H R. destruct (weyl_size_simple_ok x r H R) as (d & A & B & _). eauto. Qed.
Print Assumptions C61_weyl_size_simple.
Theorem C61_weyl_size lt : (forall x r, In (x, r) lt -> is_simple x r) -> (total_rank lt <= 32)%nat ->
  exists d, weyl_size lt = Ok (d, false) /\ stands_for d (weyl_order lt).
Proof. exact (weyl_size_ok lt). Qed.
Print Assumptions C61_weyl_size.
Theorem C61_weyl_size_toUlong lt : (forall x r, In (x, r) lt -> is_simple x r) -> (total_rank lt <= 32)%nat ->
  (run (d, _) <- weyl_size lt; toUlong d) = Ok (weyl_order lt mod 2 ^ 64).
Proof. intros H R. destruct (weyl_size_ok lt H R) as (d & -> & S). cbn [bind]. apply toUlong_ok. exact S. Qed.
Print Assumptions C61_weyl_size_toUlong.
Example C61_weyl_size_ex : let lt := [("E", 8%nat); ("T", 2%nat); ("B", 3%nat); ("f", 4%nat)]%char in
  (forall x r, In (x, r) lt -> is_simple x r) /\ (total_rank lt <= 32)%nat /\
  weyl_size lt = Ok ([25; 8; 2; 1; 0; 0; 0; 0; 0; 0; 0], false) /\ weyl_order lt = 696729600 * 48 * 1152.
Proof.
  cbv zeta. split; [|split; [cbn; lia|vm_compute; auto]].
  cbn [In]. intros x r H. repeat (destruct H as [H|H]; [injection H as <- <-; cbn; lia|]). destruct H.
Qed.
