(** Lemmas on factored numbers. *)

From Coq Require Import List Arith ZArith Znumtheory Lia Bool Ascii.
From Verif Require Import VecModel VecProofs RunModel RunProofs BitsetModel BitsetSpec BitsetProofs SizeModel SizeSpec.
Import ListNotations.
Open Scope Z_scope.

Notation sure := (fun _ : err => False).
Notation prime := Znumtheory.prime.

(** * Primes *)
Lemma prime_divisor n : 1 < n -> exists p, prime p /\ (p | n).
Proof.
  intros H. assert (P : 0 <= n) by lia. revert H. pattern n. apply Zlt_0_ind; [|exact P]. clear n P. intros n IH Hn H1.
  destruct (prime_dec n) as [Y|N]; [exists n; split; [exact Y|apply Z.divide_refl]|].
  destruct (not_prime_divide n H1 N) as (m & Hm & D). destruct (IH m ltac:(lia) ltac:(lia)) as (p & Hp & Dp).
  exists p. split; [exact Hp|]. apply (Z.divide_trans _ m); assumption.
Qed.
Lemma small_divisor n : 1 < n -> ~ prime n -> exists p, prime p /\ (p | n) /\ p * p <= n.
Proof.
  intros H N. destruct (not_prime_divide n H N) as (m & Hm & [k Hk]).
  assert (Hk1 : 1 < k) by nia.
  destruct (Z.le_ge_cases m k) as [L|L].
  - destruct (prime_divisor m ltac:(lia)) as (p & Hp & Dp). exists p. split; [exact Hp|].
    split; [apply (Z.divide_trans _ m); [exact Dp|exists k; exact Hk]|].
    apply Z.divide_pos_le in Dp; [|lia]. pose proof (prime_ge_2 p Hp). nia.
  - destruct (prime_divisor k ltac:(lia)) as (p & Hp & Dp). exists p. split; [exact Hp|].
    split; [apply (Z.divide_trans _ k); [exact Dp|exists m; lia]|].
    apply Z.divide_pos_le in Dp; [|lia]. pose proof (prime_ge_2 p Hp). nia.
Qed.

(** [ps]: the primes below j in increasing order *)
Definition primes_below (ps : list Z) (j : Z) : Prop :=
  (forall p, In p ps <-> prime p /\ p < j) /\ forall i k x y, (i < k)%nat -> get ps i = Some x -> get ps k = Some y -> x < y.

Lemma no_divisor_prime ps j : 2 <= j -> (forall p, In p ps -> prime p /\ p < j) -> prime j -> no_divisor ps j = true.
Proof.
  intros Hj H P. induction ps as [|p ps IH]; cbn [no_divisor]; [reflexivity|].
  destruct (j <? u64 (p * p)); [reflexivity|]. destruct (H p (or_introl eq_refl)) as [Hp L].
  destruct (Z.eqb_spec (j mod p) 0) as [E|E].
  - exfalso. pose proof (prime_ge_2 p Hp) as G. apply Z.mod_divide in E; [|lia].
    destruct (prime_divisors j P p E) as [?|[?|[?|?]]]; lia.
  - apply IH. intros q Hq. apply H. right. exact Hq.
Qed.
Lemma no_divisor_composite q j : 1 < j < 2 ^ 32 -> (q | j) -> q * q <= j -> forall ps,
  (forall p, In p ps -> 2 <= p) -> In q ps -> (forall i k x y, (i < k)%nat -> get ps i = Some x -> get ps k = Some y -> x < y) ->
  no_divisor ps j = false.
Proof.
  intros Hj D S. induction ps as [|p ps IH]; intros H2 Hin Hs; [destruct Hin|]. cbn [no_divisor].
  assert (L : p <= q).
  { destruct Hin as [->|Hin]; [lia|]. apply In_nth_error in Hin. destruct Hin as [k Hk].
    specialize (Hs 0%nat (Datatypes.S k) p q ltac:(lia) eq_refl Hk). lia. }
  pose proof (H2 p (or_introl eq_refl)) as G. assert (Sq : p * p <= j) by nia.
  replace (u64 (p * p)) with (p * p) by (unfold u64; rewrite Z.mod_small; [reflexivity|lia]).
  destruct (Z.ltb_spec j (p * p)); [lia|]. destruct (Z.eqb_spec (j mod p) 0) as [E|E]; [reflexivity|].
  apply IH.
  - intros x Hx. apply H2. right. exact Hx.
  - destruct Hin as [->|Hin]; [|exact Hin]. exfalso. apply E. apply Z.mod_divide; [lia|exact D].
  - intros i k x y Hik. apply (Hs (Datatypes.S i) (Datatypes.S k)). lia.
Qed.

Lemma prime_helper_ok cap n : 1 <= n < 2 ^ 32 ->
  gives (prime_helper cap n) (fun ps => primes_below ps (n + 1) /\ (length ps <= cap)%nat)
    (fun er => er = Range /\ exists ps, NoDup ps /\ length ps = Datatypes.S cap /\ forall p, In p ps -> prime p /\ p <= n).
Proof.
  intros Hn. unfold prime_helper.
  eapply gives_mono; [apply (gives_upto (fun k ps => primes_below ps (Z.of_nat k) /\ (length ps <= cap)%nat))|].
  - split; [|apply Nat.le_0_l]. split.
    + intros p. split; [intros []|]. intros [P L]. apply prime_ge_2 in P. cbn in L. lia.
    + intros i k x y _ H. destruct i; discriminate.
  - intros k ps Hk [[P1 P2] Lc]. cbv beta zeta.
    assert (Hj : 2 <= Z.of_nat k <= n) by lia.
    assert (HS : Z.of_nat (Datatypes.S k) = Z.of_nat k + 1) by lia. rewrite HS.
    destruct (prime_dec (Z.of_nat k)) as [Y|N].
    + rewrite (no_divisor_prime ps (Z.of_nat k)) by (try lia; try assumption; intros p Hp; apply P1; exact Hp).
      assert (IP : forall p, In p (ps ++ [Z.of_nat k]) <-> prime p /\ p < Z.of_nat k + 1).
      { intros p. rewrite in_app_iff. cbn [In]. rewrite P1. split.
        - intros [[A B]|[<-|[]]]; [split; [exact A|lia]|split; [exact Y|lia]].
        - intros [A B]. destruct (Z.eq_dec (Z.of_nat k) p) as [->|Ne]; [auto|left; split; [exact A|lia]]. }
      assert (SP : forall i k0 x y, (i < k0)%nat -> get (ps ++ [Z.of_nat k]) i = Some x -> get (ps ++ [Z.of_nat k]) k0 = Some y -> x < y).
      { unfold get. intros i k0 x y Hik Hx Hy. assert (K : (k0 < length (ps ++ [Z.of_nat k]))%nat) by (apply nth_error_Some; congruence).
        rewrite app_length in K. cbn [length] in K.
        rewrite nth_error_app1 in Hx by lia.
        destruct (Nat.eq_dec k0 (length ps)) as [->|Ne].
        - rewrite nth_error_app2, Nat.sub_diag in Hy by lia. cbn in Hy. injection Hy as <-.
          apply nth_error_In, P1 in Hx. lia.
        - rewrite nth_error_app1 in Hy by lia. apply (P2 i k0 x y Hik Hx Hy). }
      destruct (Nat.eqb_spec (length ps) cap) as [Ec|Nc].
      * apply gives_fail. split; [reflexivity|]. exists (ps ++ [Z.of_nat k]).
        split; [|split].
        -- apply NoDup_nth_error. intros i j Hi E.
           assert (G : get (ps ++ [Z.of_nat k]) i <> None) by (apply nth_error_Some; exact Hi). unfold get in *.
           destruct (nth_error (ps ++ [Z.of_nat k]) i) as [x|] eqn:Ex; [|congruence].
           destruct (Nat.lt_trichotomy i j) as [L|[L|L]]; [|exact L|];
           [specialize (SP i j x x L Ex (eq_sym E))|specialize (SP j i x x L (eq_sym E) Ex)]; lia.
        -- rewrite app_length. cbn. lia.
        -- intros p Hp. apply IP in Hp. split; [tauto|lia].
      * apply gives_ok. split; [split; assumption|]. rewrite app_length. cbn. lia.
    + destruct (small_divisor (Z.of_nat k) ltac:(lia) N) as (q & Hq & D & Sq).
      pose proof (prime_ge_2 q Hq) as G2.
      rewrite (no_divisor_composite q (Z.of_nat k)).
      * apply gives_ok. split; [split; [|exact P2]|exact Lc]. intros p. rewrite P1. split; intros [A B]; (split; [exact A|]); [lia|].
        destruct (Z.eq_dec p (Z.of_nat k)) as [->|Ne]; [contradiction|lia].
      * lia.
      * exact D.
      * exact Sq.
      * intros p Hp. apply P1 in Hp. apply prime_ge_2. tauto.
      * apply P1. split; [exact Hq|nia].
      * exact P2.
  - intros ps. replace (Z.of_nat (2 + Z.to_nat (n - 1))) with (n + 1) by lia. auto.
Qed.

Lemma the_table : prime_table = Ok the_primes.
Proof. vm_compute. reflexivity. Qed.
Lemma table_36 : prime_helper 11 36 = Ok the_primes.
Proof. vm_compute. reflexivity. Qed.
Lemma the_primes_iff p : In p the_primes <-> prime p /\ p < 37.
Proof. pose proof (prime_helper_ok 11 36 ltac:(lia)) as H. rewrite table_36 in H. apply (proj1 H). Qed.
Lemma the_primes_nodup : NoDup the_primes.
Proof. repeat constructor; cbn; intuition lia. Qed.

(** * Extraction of a factor *)
Lemma s8_small x : 0 <= x < 128 -> s8 x = x.
Proof. intros H. unfold s8. rewrite Z.mod_small; lia. Qed.
Lemma extract_ok fuel p a0 : (64 <= fuel)%nat -> 2 <= p -> 0 < a0 < 2 ^ 64 ->
  gives (extract fuel p a0) (fun '(a, e) => 0 < a <= a0 /\ 0 <= e < 64 /\ a0 = a * p ^ e /\ ~ (p | a)) sure.
Proof.
  intros Hf Hp Ha. unfold extract.
  apply (gives_loop (fun '(a, e) => 0 < a <= a0 /\ 0 <= e < 64 /\ a0 = a * p ^ e) (fun '(a, e) => Z.to_nat (64 - e)) (fun '(a, e) => a mod p =? 0)).
  - split; [lia|]. split; [lia|]. rewrite Z.pow_0_r. lia.
  - cbn. lia.
  - intros [a e] _. destruct (Z.eqb_spec p 0); [lia|]. apply gives_ok. reflexivity.
  - intros [a e] (A & B & C) D. apply Z.eqb_eq in D. apply Z.mod_divide in D; [|lia]. destruct D as [k ->].
    assert (Hk : 0 < k) by nia. rewrite Z.div_mul by lia.
    assert (E1 : a0 = k * p ^ (e + 1)) by (rewrite Z.pow_add_r, Z.pow_1_r by lia; lia).
    assert (E2 : 2 ^ (e + 1) < 2 ^ 64).
    { assert (2 ^ (e + 1) <= p ^ (e + 1)) by (apply Z.pow_le_mono_l; lia). assert (0 < p ^ (e + 1)) by (apply Z.pow_pos_nonneg; lia). nia. }
    assert (E3 : e + 1 < 64) by (apply (Z.pow_lt_mono_r_iff 2); lia).
    split; [lia|]. apply gives_ok. rewrite s8_small by lia. split; [|lia].
    split; [split; [lia|nia]|]. split; [lia|]. exact E1.
  - intros [a e] (A & B & C) D. apply Z.eqb_neq in D. split; [lia|]. split; [lia|]. split; [exact C|].
    intros X. apply D. apply Z.mod_divide; [lia|exact X].
Qed.
Lemma loop_endless {S} (I : S -> Prop) cond body : (forall s, I s -> cond s = Ok true /\ exists s', body s = Ok s' /\ I s') ->
  forall fuel s, I s -> loop fuel cond body s = Fail Fuel.
Proof.
  intros H. induction fuel as [|k IH]; intros s Hs; cbn [loop]; destruct (H s Hs) as [-> (s' & E & Hs')]; cbn [bind]; [reflexivity|].
  rewrite E. apply (IH s' Hs').
Qed.
Lemma extract_zero fuel p : p <> 0 -> extract fuel p 0 = Fail Fuel.
Proof.
  intros Hp. unfold extract. apply (loop_endless (fun '(a, e) => a = 0)); [|reflexivity].
  intros [a e] ->. destruct (Z.eqb_spec p 0); [contradiction|]. rewrite Z.mod_0_l by assumption. split; [reflexivity|].
  eexists. split; [reflexivity|]. apply Z.div_0_l. assumption.
Qed.

(** * Products of powers *)
Lemma prod_app ps qs es fs : length ps = length es -> prod_powers (ps ++ qs) (es ++ fs) = prod_powers ps es * prod_powers qs fs.
Proof.
  revert es. induction ps as [|p ps IH]; intros [|e es] L; try discriminate; cbn [app prod_powers]; [lia|].
  rewrite IH by (injection L as L; exact L). lia.
Qed.
Lemma prod_pos ps es : (forall p, In p ps -> 2 <= p) -> (forall e, In e es -> 0 <= e) -> 0 < prod_powers ps es.
Proof.
  revert es. induction ps as [|p ps IH]; intros [|e es] Hp He; cbn [prod_powers]; try lia.
  assert (0 < p ^ e) by (apply Z.pow_pos_nonneg; [specialize (Hp p (or_introl eq_refl)); lia|apply He; left; reflexivity]).
  assert (0 < prod_powers ps es) by (apply IH; intros x Hx; [apply Hp|apply He]; right; exact Hx). nia.
Qed.
Lemma prime_pow_div p q e : prime p -> prime q -> 0 <= e -> (p | q ^ e) -> p = q.
Proof.
  intros P Q He. revert e He. apply (natlike_ind (fun e => (p | q ^ e) -> p = q)).
  - rewrite Z.pow_0_r. intros D. pose proof (prime_ge_2 p P). apply Z.divide_1_r_nonneg in D; lia.
  - intros e He IH D. rewrite Z.pow_succ_r in D by exact He. apply prime_mult in D; [|exact P]. destruct D as [D|D]; [|auto].
    apply prime_div_prime; assumption.
Qed.
Lemma prod_prime_div p ps es : prime p -> (forall q, In q ps -> prime q) -> (forall e, In e es -> 0 <= e) ->
  (p | prod_powers ps es) -> In p ps.
Proof.
  intros P. revert es. induction ps as [|q ps IH]; intros [|e es] Hq He D; cbn [prod_powers] in D;
  try (apply Z.divide_1_r_nonneg in D; [subst p; apply prime_ge_2 in P; lia|apply prime_ge_2 in P; lia]).
  apply prime_mult in D; [|exact P]. destruct D as [D|D].
  - left. symmetry. apply (prime_pow_div p q e); auto; [apply Hq|apply He]; left; reflexivity.
  - right. apply (IH es); auto; intros x Hx; [apply Hq|apply He]; right; exact Hx.
Qed.
Lemma the_primes_prime q : In q the_primes -> prime q.
Proof. intros H. apply the_primes_iff, H. Qed.
Lemma the_primes_ge q : In q the_primes -> 2 <= q.
Proof. intros H. apply prime_ge_2, the_primes_prime, H. Qed.
Lemma stands_smooth d v : stands_for d v -> 0 < v /\ smooth v.
Proof.
  intros (L & H & <-). assert (N : forall e, In e d -> 0 <= e) by (intros e He; apply H in He; lia). split.
  - apply prod_pos; [apply the_primes_ge|exact N].
  - intros p P D. apply the_primes_iff. apply (prod_prime_div p the_primes d); auto. apply the_primes_prime.
Qed.

Lemma get_primes n : (n < 11)%nat -> exists p, get the_primes n = Some p /\ In p the_primes.
Proof.
  intros H. unfold get. destruct (nth_error the_primes n) as [p|] eqn:E; [|apply nth_error_None in E; cbn in E; lia].
  exists p. split; [reflexivity|]. apply nth_error_In in E. exact E.
Qed.
Lemma firstn_get {A} (l : list A) n x : get l n = Some x -> firstn (Datatypes.S n) l = firstn n l ++ [x].
Proof.
  unfold get. revert l. induction n as [|n IH]; intros [|y l] H; try discriminate; cbn in *; [injection H as ->; reflexivity|].
  f_equal. apply IH. exact H.
Qed.

Lemma size_of_ok fuel a : (64 <= fuel)%nat -> 0 < a < 2 ^ 64 ->
  gives (size_of fuel a) (fun '(d, said) => exists v m, stands_for d v /\ a = v * m /\ 0 < m /\
    (forall e, In e d -> e < 64) /\
    (forall p, prime p -> (p | m) -> 37 <= p) /\ (said = true <-> m <> 1)) sure.
Proof.
  intros Hf Ha. unfold size_of.
  eapply gives_bind; [apply (gives_upto0 (fun n '(m, d) => length d = n /\ 0 < m <= a /\ a = prod_powers (firstn n the_primes) d * m /\
     (forall e, In e d -> 0 <= e < 64) /\ forall p, In p (firstn n the_primes) -> ~ (p | m)))|].
  - split; [reflexivity|]. split; [lia|]. split; [cbn [firstn the_primes prod_powers]; lia|]. split; intros ? [].
  - intros n [m d] Hn (L & M & E & He & Hd). unfold SizeModel.prime. rewrite the_table. cbn [bind].
    change (n < 11)%nat in Hn. destruct (get_primes n Hn) as (p & Gp & Ip). unfold vget. rewrite Gp. cbn [bind].
    eapply gives_bind; [apply (extract_ok fuel p m Hf (the_primes_ge p Ip)); lia|]. intros [m' e] (A & B & C & D).
    apply gives_ok. rewrite app_length. cbn [length]. rewrite L. split; [lia|]. split; [lia|].
    rewrite (firstn_get _ _ _ Gp). split; [|split].
    + rewrite prod_app by (rewrite firstn_length, L; cbn; lia). cbn [prod_powers]. rewrite E at 1. rewrite C at 1. ring.
    + intros x Hx. apply in_app_iff in Hx. destruct Hx as [Hx|[<-|[]]]; [apply He; exact Hx|lia].
    + intros q Hq. apply in_app_iff in Hq. destruct Hq as [Hq|[<-|[]]]; [|exact D].
      intros X. apply (Hd q Hq). rewrite C. apply Z.divide_mul_l. exact X.
  - intros s H. exact H.
  - intros [m d] (L & M & E & He & Hd). apply gives_ok. change (firstn PRIMES_MAX the_primes) with the_primes in *.
    exists (prod_powers the_primes d), m.
    split; [split; [exact L|split; [intros e Hx; apply He in Hx; lia|reflexivity]]|]. split; [exact E|]. split; [lia|].
    split; [intros e Hx; apply He in Hx; lia|]. split.
    + intros p P D. destruct (Z.le_gt_cases 37 p) as [|L37]; [assumption|]. exfalso. apply (Hd p); [|exact D].
      apply the_primes_iff. split; [exact P|lia].
    + destruct (Z.eqb_spec a 0); [lia|]. cbn [orb]. destruct (Z.ltb_spec 1 m); split; intros; try lia; try discriminate; reflexivity.
Qed.

(** * Uniqueness and divisibility *)
Lemma rel_prime_pow p x e : prime p -> ~ (p | x) -> 0 <= e -> rel_prime (p ^ e) x.
Proof.
  intros P N. revert e. apply (natlike_ind (fun e => rel_prime (p ^ e) x)).
  - rewrite Z.pow_0_r. apply rel_prime_1.
  - intros e He IH. rewrite Z.pow_succ_r by exact He. apply rel_prime_sym, rel_prime_mult; apply rel_prime_sym; [|exact IH].
    apply prime_rel_prime; assumption.
Qed.
Lemma pow_divides p a b : 2 <= p -> 0 <= a -> 0 <= b -> (p ^ a | p ^ b) -> a <= b.
Proof.
  intros Hp Ha Hb D. apply Z.divide_pos_le in D; [|apply Z.pow_pos_nonneg; lia].
  apply (Z.pow_le_mono_r_iff p); lia.
Qed.
Lemma prod_divides ps : NoDup ps -> (forall p, In p ps -> prime p) -> forall es fs, length es = length ps -> length fs = length ps ->
  (forall e, In e es -> 0 <= e) -> (forall e, In e fs -> 0 <= e) -> (prod_powers ps es | prod_powers ps fs) -> Forall2 Z.le es fs.
Proof.
  induction ps as [|p ps IH]; intros ND HP [|e es] [|f fs] L1 L2 He Hf D; try discriminate; [constructor|].
  inversion ND as [|? ? Nin ND']; subst. cbn [prod_powers] in D.
  assert (Pp : prime p) by (apply HP; left; reflexivity).
  assert (e0 : 0 <= e) by (apply He; left; reflexivity). assert (f0 : 0 <= f) by (apply Hf; left; reflexivity).
  assert (X : forall gs, (forall g, In g gs -> 0 <= g) -> ~ (p | prod_powers ps gs)).
  { intros gs Hg C. apply Nin. apply (prod_prime_div p ps gs); auto. intros q Hq. apply HP. right. exact Hq. }
  assert (He' : forall g, In g es -> 0 <= g) by (intros g Hg; apply He; right; exact Hg).
  assert (Hf' : forall g, In g fs -> 0 <= g) by (intros g Hg; apply Hf; right; exact Hg).
  constructor.
  - apply (pow_divides p); [apply prime_ge_2; exact Pp|exact e0|exact f0|].
    apply (Gauss _ (prod_powers ps fs)); [|apply rel_prime_pow; auto].
    apply (Z.divide_trans _ (p ^ e * prod_powers ps es)); [apply Z.divide_factor_l|].
    replace (prod_powers ps fs * p ^ f) with (p ^ f * prod_powers ps fs) by ring. exact D.
  - apply IH; auto; [intros q Hq; apply HP; right; exact Hq|].
    apply (Gauss _ (p ^ f)); [|apply rel_prime_sym, rel_prime_pow; auto].
    apply (Z.divide_trans _ (p ^ e * prod_powers ps es)); [apply Z.divide_factor_r|exact D].
Qed.

Lemma prod_divides_the es fs v w : stands_for es v -> stands_for fs w -> (v | w) -> Forall2 Z.le es fs.
Proof.
  intros (L1 & H1 & <-) (L2 & H2 & <-) D. apply (prod_divides the_primes the_primes_nodup the_primes_prime); auto.
  - intros e He. apply H1 in He. lia.
  - intros e He. apply H2 in He. lia.
Qed.
Lemma Forall2_antisym es fs : Forall2 Z.le es fs -> Forall2 Z.le fs es -> es = fs.
Proof.
  intros H. induction H as [|x y l l' Hx H IH]; intros H2; [reflexivity|]. inversion H2; subst. f_equal; [lia|auto].
Qed.
Lemma stands_unique d d' v : stands_for d v -> stands_for d' v -> d = d'.
Proof.
  intros H1 H2. apply Forall2_antisym; [apply (prod_divides_the d d' v v)|apply (prod_divides_the d' d v v)]; auto; apply Z.divide_refl.
Qed.

(** * Products and quotients *)
Fixpoint zipz (op : Z -> Z -> Z) (a b : list Z) : list Z :=
  match a, b with x :: a', y :: b' => op x y :: zipz op a' b' | _, _ => [] end.
Lemma zipz_length op a : forall b, length b = length a -> length (zipz op a b) = length a.
Proof. induction a as [|x a IH]; intros [|y b] L; try discriminate; [reflexivity|]. cbn. f_equal. apply IH. injection L as ->. reflexivity. Qed.
Lemma get_zipz op a : forall b i x y, get a i = Some x -> get b i = Some y -> get (zipz op a b) i = Some (op x y).
Proof.
  unfold get. induction a as [|u a IH]; intros [|v b] [|i] x y Ha Hb; try discriminate; cbn in *; [congruence|auto].
Qed.
Lemma list_get_ext (a : list Z) : forall b, (forall j, get a j = get b j) -> a = b.
Proof.
  unfold get. induction a as [|x a IH]; intros [|y b] H; [reflexivity|specialize (H 0%nat); discriminate|specialize (H 0%nat); discriminate|].
  pose proof (H 0%nat) as H0. injection H0 as ->. f_equal. apply IH. intros j. apply (H (S j)).
Qed.
Lemma exponents_ok op d a : length d = 11%nat -> length a = 11%nat ->
  exponents op d a = Ok (zipz (fun x y => s8 (op x y)) d a).
Proof.
  intros Ld La.
  assert (H : gives (exponents op d a) (fun r => r = zipz (fun x y => s8 (op x y)) d a) sure).
  { unfold exponents. apply (gives_upto0 (fun i r => length r = 11%nat /\
      forall j, get r j = if (j <? i)%nat then get (zipz (fun x y => s8 (op x y)) d a) j else get d j)).
    - split; [exact Ld|]. intros j. reflexivity.
    - intros i r Hi [L G]. change (i < 11)%nat in Hi.
      destruct (get d i) as [x|] eqn:Ed; [|apply nth_error_None in Ed; lia].
      destruct (get a i) as [y|] eqn:Ea; [|apply nth_error_None in Ea; lia].
      unfold vget at 1. rewrite (G i), Nat.ltb_irrefl, Ed. cbn [bind]. unfold vget. rewrite Ea. cbn [bind].
      apply gives_vput; [lia|]. intros w Lw Gw. split; [lia|]. intros j. rewrite Gw, G.
      destruct (Nat.eqb_spec j i) as [->|Ne].
      + destruct (Nat.ltb_spec i (S i)); [|lia]. symmetry. apply (get_zipz (fun x y => s8 (op x y)) d a i x y Ed Ea).
      + destruct (Nat.ltb_spec j i), (Nat.ltb_spec j (S i)); try lia; reflexivity.
    - intros r [L G]. apply (list_get_ext r). intros j. rewrite G. destruct (Nat.ltb_spec j PRIMES_MAX) as [|Hj]; [reflexivity|].
      change (11 <= j)%nat in Hj.
      transitivity (@None Z); [|symmetry]; apply nth_error_None; [lia|]. rewrite zipz_length; lia. }
  destruct (exponents op d a); [f_equal; exact H|destruct H].
Qed.

Lemma zipz_same f g a : forall b, (forall i x y, get a i = Some x -> get b i = Some y -> f x y = g x y) -> zipz f a b = zipz g a b.
Proof.
  unfold get. induction a as [|x a IH]; intros [|y b] H; cbn; try reflexivity. f_equal; [apply (H 0%nat); reflexivity|].
  apply IH. intros i. apply (H (S i)).
Qed.
Lemma In_zipz op a : forall b z, In z (zipz op a b) -> exists i x y, get a i = Some x /\ get b i = Some y /\ z = op x y.
Proof.
  unfold get. induction a as [|x a IH]; intros [|y b] z H; try destruct H as [].
  - subst z. exists 0%nat, x, y. auto.
  - destruct (IH b z H) as (i & u & v & A & B & C). exists (S i), u, v. auto.
Qed.
Lemma prod_add ps : forall a b, length a = length ps -> length b = length ps -> (forall e, In e a -> 0 <= e) -> (forall e, In e b -> 0 <= e) ->
  prod_powers ps (zipz Z.add a b) = prod_powers ps a * prod_powers ps b.
Proof.
  induction ps as [|p ps IH]; intros [|x a] [|y b] La Lb Ha Hb; try discriminate; [reflexivity|]. cbn [zipz prod_powers].
  assert (Ha' : forall e, In e a -> 0 <= e) by (intros; apply Ha; right; assumption).
  assert (Hb' : forall e, In e b -> 0 <= e) by (intros; apply Hb; right; assumption).
  assert (0 <= x) by (apply Ha; left; reflexivity). assert (0 <= y) by (apply Hb; left; reflexivity).
  rewrite IH by auto. rewrite Z.pow_add_r by assumption. ring.
Qed.
Lemma prod_one_div ps : forall es i p e, get ps i = Some p -> get es i = Some e -> (p ^ e | prod_powers ps es).
Proof.
  unfold get. induction ps as [|q ps IH]; intros [|f es] [|i] p e Hp He; try discriminate; cbn in *.
  - injection Hp as ->. injection He as ->. apply Z.divide_factor_l.
  - apply Z.divide_mul_r. apply (IH es i); assumption.
Qed.

Lemma size_mul_ok d a v w : stands_for d v -> stands_for a w -> (forall p, prime p -> ~ (p ^ 128 | v * w)) ->
  exists r, size_mul d a = Ok r /\ stands_for r (v * w).
Proof.
  intros (L1 & H1 & <-) (L2 & H2 & <-) N. unfold size_mul. rewrite exponents_ok by assumption. eexists. split; [reflexivity|].
  assert (E : prod_powers the_primes (zipz Z.add d a) = prod_powers the_primes d * prod_powers the_primes a).
  { apply prod_add; auto; [intros e He; apply H1 in He; lia|intros e He; apply H2 in He; lia]. }
  assert (B : forall i x y, get d i = Some x -> get a i = Some y -> 0 <= x + y < 128).
  { intros i x y Hx Hy. pose proof (nth_error_In _ _ Hx) as Ix. pose proof (nth_error_In _ _ Hy) as Iy. apply H1 in Ix. apply H2 in Iy.
    split; [lia|]. destruct (Z.lt_ge_cases (x + y) 128) as [|G]; [assumption|]. exfalso.
    destruct (get_primes i) as (p & Gp & Ip). { assert (i < length d)%nat by (apply nth_error_Some; unfold get in Hx; congruence). lia. }
    apply (N p (the_primes_prime p Ip)). rewrite <- E. apply (Z.divide_trans _ (p ^ (x + y))).
    - exists (p ^ (x + y - 128)). rewrite <- Z.pow_add_r by lia. f_equal. lia.
    - apply (prod_one_div the_primes _ i p); [exact Gp|]. apply get_zipz; assumption. }
  rewrite (zipz_same _ Z.add) by (intros i x y Hx Hy; apply s8_small; apply (B i); assumption).
  split; [rewrite zipz_length; lia|]. split; [|exact E].
  intros e He. apply In_zipz in He. destruct He as (i & x & y & Hx & Hy & ->). apply (B i); assumption.
Qed.
Lemma size_div_ok d a v w : stands_for d v -> stands_for a w -> (w | v) ->
  exists r, size_div d a = Ok r /\ stands_for r (v / w).
Proof.
  intros Hv Hw D. pose proof (prod_divides_the a d w v Hw Hv D) as F. pose proof (stands_smooth a w Hw) as [Pw _].
  destruct Hv as (L1 & H1 & <-), Hw as (L2 & H2 & <-). unfold size_div. rewrite exponents_ok by assumption. eexists. split; [reflexivity|].
  assert (B : forall i x y, get d i = Some x -> get a i = Some y -> 0 <= x - y < 128).
  { clear - F H1 H2. intros i x y Hx Hy. pose proof (nth_error_In _ _ Hx) as Ix. pose proof (nth_error_In _ _ Hy) as Iy.
    apply H1 in Ix. apply H2 in Iy. assert (y <= x); [|lia]. clear H1 H2 Ix Iy. unfold get in *. revert i Hx Hy.
    induction F as [|p q l l' Hpq F IH]; intros [|i] Hx Hy; try discriminate; cbn in *; [injection Hx as <-; injection Hy as <-; exact Hpq|].
    apply (IH i); assumption. }
  rewrite (zipz_same _ Z.sub) by (intros i x y Hx Hy; apply s8_small; apply (B i); assumption).
  assert (I : forall e, In e (zipz Z.sub d a) -> 0 <= e < 128).
  { intros e He. apply In_zipz in He. destruct He as (i & x & y & Hx & Hy & ->). apply (B i); assumption. }
  assert (Lz : length (zipz Z.sub d a) = 11%nat) by (rewrite zipz_length; lia).
  split; [exact Lz|]. split; [exact I|].
  assert (E : zipz Z.add (zipz Z.sub d a) a = d).
  { clear - L1 L2. assert (L : length a = length d) by lia. clear L1 L2. revert a L. induction d as [|x d IH]; intros [|y a] L; try discriminate; [reflexivity|].
    cbn [zipz]. f_equal; [lia|]. apply IH. injection L as ->. reflexivity. }
  rewrite <- E at 2. rewrite prod_add; [symmetry; apply Z.div_mul; lia|exact Lz|exact L2| |]; intros e He; [apply I in He|apply H2 in He]; lia.
Qed.
Lemma two_shift_ok d v n : stands_for d v -> 0 <= n -> (forall p, prime p -> ~ (p ^ 128 | v * 2 ^ n)) ->
  exists r, two_shift d n = Ok r /\ stands_for r (v * 2 ^ n).
Proof.
  intros (L & H & <-) Hn N. destruct d as [|e d]; [discriminate|].
  assert (E : prod_powers the_primes (e + n :: d) = prod_powers the_primes (e :: d) * 2 ^ n).
  { unfold the_primes. cbn [prod_powers]. rewrite Z.pow_add_r by (try lia; apply (H e); left; reflexivity). ring. }
  pose proof (H e (or_introl eq_refl)) as He.
  assert (B : 0 <= e + n < 128).
  { split; [lia|]. destruct (Z.lt_ge_cases (e + n) 128) as [|G]; [assumption|]. exfalso. apply (N 2 prime_2). rewrite <- E.
    apply (Z.divide_trans _ (2 ^ (e + n))); [|apply Z.divide_factor_l]. exists (2 ^ (e + n - 128)). rewrite <- Z.pow_add_r by lia. f_equal. lia. }
  exists (e + n :: d). split.
  - unfold two_shift, vget, vput. cbn [get nth_error bind put]. rewrite s8_small by exact B. reflexivity.
  - split; [exact L|]. split; [|exact E]. intros x [<-|Hx]; [exact B|]. apply H. right. exact Hx.
Qed.

(** * The number modulo 2^64 *)
Lemma u64_mul_l a b : u64 (u64 a * b) = u64 (a * b).
Proof. unfold u64. rewrite Z.mul_mod_idemp_l by lia. reflexivity. Qed.
Lemma u64_mul_r a b : u64 (a * u64 b) = u64 (a * b).
Proof. unfold u64. rewrite Z.mul_mod_idemp_r by lia. reflexivity. Qed.
Lemma power_loop_ok p e : 0 <= e < 2 ^ 64 -> let r := of_ulong2 e in
  power_loop p r (Z.to_nat (lastBit2 r)) = Ok (u64 (p ^ e)).
Proof.
  intros He r. destruct (of_ulong2_ok e He) as [Ok2 V]. fold r in Ok2, V.
  assert (T : lastBit2 r <= 64 /\ 0 <= lastBit2 r /\ e / 2 ^ lastBit2 r = 0).
  { destruct (lastBit2_ok r Ok2) as [[Z0 ->]|H].
    - split; [lia|]. split; [lia|]. rewrite Z.pow_0_r, Z.div_1_r. rewrite <- V. apply Z.bits_inj_0. intros n.
      destruct (Z.lt_ge_cases n 0); [apply Z.testbit_neg_r; lia|]. apply Z0. lia.
    - destruct H as (A & B & C). split; [lia|]. split; [lia|]. apply Z.bits_inj_0. intros n.
      destruct (Z.lt_ge_cases n 0); [apply Z.testbit_neg_r; lia|]. rewrite Z.div_pow2_bits by lia. rewrite <- V. apply C. lia. }
  destruct T as (T1 & T0 & T2).
  assert (H : gives (power_loop p r (Z.to_nat (lastBit2 r))) (fun c => c = u64 (p ^ e)) sure).
  { unfold power_loop. apply (gives_downto (fun i c => c = u64 (p ^ (e / 2 ^ Z.of_nat i)))).
    - rewrite Z2Nat.id by lia. rewrite T2. reflexivity.
    - intros i c Hi ->. cbv zeta. apply gives_ok.
      assert (Hi' : 0 <= Z.of_nat i < 64) by lia. rewrite (test2_ok r Ok2 _ Hi'). unfold mem2. rewrite V.
      set (q := e / 2 ^ Z.of_nat i).
      assert (Q : q = 2 * (e / 2 ^ Z.of_nat (S i)) + Z.b2z (Z.testbit e (Z.of_nat i))).
      { assert (Hh : e / 2 ^ Z.of_nat (S i) = q / 2).
        { rewrite Nat2Z.inj_succ, Z.pow_succ_r by lia. unfold q. rewrite Z.div_div by lia. f_equal. lia. }
        rewrite Hh.
        replace (Z.testbit e (Z.of_nat i)) with (Z.testbit q 0) by (unfold q; rewrite Z.div_pow2_bits by lia; f_equal; lia).
        rewrite Z.bit0_mod. apply Z.div_mod. lia. }
      set (h := e / 2 ^ Z.of_nat (S i)) in *. assert (0 <= h) by (unfold h; apply Z.div_pos; [lia|apply Z.pow_pos_nonneg; lia]).
      rewrite Q. destruct (Z.testbit e (Z.of_nat i)); cbn [Z.b2z].
      + rewrite u64_mul_l. rewrite <- Z.mul_assoc, u64_mul_l, (Z.mul_comm (p ^ h)), <- Z.mul_assoc, (Z.mul_comm p), u64_mul_l.
        f_equal. rewrite Z.pow_add_r, Z.pow_1_r, Z.pow_mul_r, Z.pow_2_r by lia. rewrite Z.pow_mul_l. ring.
      + rewrite u64_mul_l, u64_mul_r. f_equal. rewrite Z.add_0_r, Z.pow_mul_r, Z.pow_2_r, Z.pow_mul_l by lia. ring.
    - intros c ->. cbn [Z.of_nat]. rewrite Z.pow_0_r, Z.div_1_r. reflexivity. }
  destruct (power_loop p r (Z.to_nat (lastBit2 r))); [f_equal; exact H|destruct H].
Qed.
Lemma prod_firstn ps es n p e : get ps n = Some p -> get es n = Some e ->
  prod_powers (firstn (S n) ps) (firstn (S n) es) = prod_powers (firstn n ps) (firstn n es) * p ^ e.
Proof.
  intros Hp He. rewrite (firstn_get _ _ _ Hp), (firstn_get _ _ _ He).
  assert (n < length ps)%nat by (apply nth_error_Some; unfold get in Hp; congruence).
  assert (n < length es)%nat by (apply nth_error_Some; unfold get in He; congruence).
  rewrite prod_app by (rewrite !firstn_length; lia). cbn [prod_powers]. ring.
Qed.
Lemma toUlong_ok d v : stands_for d v -> toUlong d = Ok (v mod 2 ^ 64).
Proof.
  intros (L & H & <-). fold (u64 (prod_powers the_primes d)).
  assert (X : gives (toUlong d) (fun c => c = u64 (prod_powers the_primes d)) sure).
  { unfold toUlong. apply (gives_upto0 (fun i c => c = u64 (prod_powers (firstn i the_primes) (firstn i d)))).
    - reflexivity.
    - intros i c Hi ->. change (i < 11)%nat in Hi. destruct (get_primes i Hi) as (p & Gp & Ip).
      destruct (get d i) as [e|] eqn:Ge; [|apply nth_error_None in Ge; lia].
      pose proof (nth_error_In _ _ Ge) as Ie. apply H in Ie.
      unfold piece, SizeModel.prime. rewrite the_table. cbn [bind]. unfold vget. rewrite Gp. cbn [bind]. rewrite Ge. cbn [bind].
      replace (u64 e) with e by (unfold u64; rewrite Z.mod_small; lia). rewrite power_loop_ok by lia. cbn [bind]. apply gives_ok.
      rewrite u64_mul_l, u64_mul_r. rewrite (prod_firstn _ _ _ _ _ Gp Ge). reflexivity.
    - intros c ->. change (firstn PRIMES_MAX the_primes) with the_primes. rewrite firstn_all2 by (rewrite L; apply Nat.le_refl). reflexivity. }
  destruct (toUlong d); [f_equal; exact X|destruct X].
Qed.

(** * Factorials and orders of Weyl groups *)
Definition standsb (d : list Z) (v : Z) : bool :=
  (length d =? 11)%nat && forallb (fun e => (0 <=? e) && (e <? 128)) d && (prod_powers the_primes d =? v).
Lemma standsb_ok d v : standsb d v = true -> stands_for d v.
Proof.
  unfold standsb. rewrite !andb_true_iff, forallb_forall, Nat.eqb_eq, Z.eqb_eq. intros ((A & B) & C). split; [exact A|]. split; [|exact C].
  intros e He. apply B in He. rewrite andb_true_iff, Z.leb_le, Z.ltb_lt in He. exact He.
Qed.
Definition good (m : res (list Z * bool)) (v : Z) (bound : Z) : bool :=
  match m with Ok (d, false) => standsb d v && forallb (fun e => e <=? bound) d | _ => false end.
Lemma good_ok m v b : good m v b = true -> exists d, m = Ok (d, false) /\ stands_for d v /\ forall e, In e d -> e <= b.
Proof.
  destruct m as [[d [|]]|]; cbn; try discriminate. rewrite andb_true_iff, forallb_forall. intros [A B]. exists d. split; [reflexivity|].
  split; [apply standsb_ok; exact A|]. intros e He. apply Z.leb_le. auto.
Qed.
Lemma factorials : forallb (fun n => good (factorial n) (zfact n) 127) (seq 0 37) = true.
Proof. vm_compute. reflexivity. Qed.
Lemma factorial_ok n : (n < 37)%nat -> exists d, factorial n = Ok (d, false) /\ stands_for d (zfact n).
Proof.
  intros H. pose proof (proj1 (forallb_forall _ _) factorials n) as F. specialize (F ltac:(apply in_seq; lia)).
  destruct (good_ok _ _ _ F) as (d & A & B & _). eauto.
Qed.
(* beyond that the message is printed *)
Lemma size_mul_total d a : length d = 11%nat -> length a = 11%nat -> exists r, size_mul d a = Ok r /\ length r = 11%nat.
Proof. intros L1 L2. unfold size_mul. rewrite exponents_ok by assumption. eexists. split; [reflexivity|]. rewrite zipz_length; lia. Qed.
Lemma prime_37 : prime 37.
Proof. destruct (prime_dec 37) as [|N]; [assumption|]. exfalso. destruct (small_divisor 37 ltac:(lia) N) as (p & Hp & [k D] & S).
  pose proof (prime_ge_2 p Hp). assert (p < 7) by nia. assert (p = 2 \/ p = 3 \/ p = 4 \/ p = 5 \/ p = 6) by lia. lia. Qed.
Lemma factorial_said n : (37 <= n)%nat -> Z.of_nat n < 2 ^ 64 -> gives (factorial n) (fun '(d, said) => said = true) sure.
Proof.
  intros H Hn. unfold factorial. replace (size_of rounds 1) with (Ok (size_one, false)) by (vm_compute; reflexivity). cbn [bind].
  apply (gives_downto (fun i '(d, said) => length d = 11%nat /\ ((i <= 35)%nat -> said = true))).
  - split; [reflexivity|]. lia.
  - intros i [r said] Hi [L P]. cbv beta iota.
    eapply gives_bind; [apply (size_of_ok rounds (Z.of_nat (i + 2))); [apply Nat.le_refl|lia]|]. intros [a said'] (v & m & (La & Ha & Hv) & E & Pm & _ & Hm & Hs).
    destruct (size_mul_total r a L La) as (w & -> & Lw). cbn [bind]. apply gives_ok. split; [exact Lw|].
    intros Hi35. destruct (Nat.eq_dec i 35) as [->|Ne].
    + replace said' with true; [apply orb_true_r|]. symmetry. apply Hs. intros ->.
      rewrite Z.mul_1_r in E. change (Z.of_nat (35 + 2)) with 37 in E.
      assert (ST : stands_for a v) by (split; [exact La|split; [exact Ha|exact Hv]]).
      pose proof (proj2 (stands_smooth a v ST) 37 prime_37) as Sm. rewrite <- E in Sm. specialize (Sm (Z.divide_refl _)). lia.
    + rewrite P by lia. reflexivity.
  - intros [d said] [_ P]. apply P. lia.
Qed.

Definition ranks : list (ascii * list nat) :=
  [("A", seq 1 32); ("T", seq 1 32); ("B", seq 2 31); ("C", seq 2 31); ("D", seq 4 29); ("E", seq 6 3);
   ("F", [4%nat]); ("f", [4%nat]); ("G", [2%nat]); ("g", [2%nat])]%char.
Lemma simple_ranks x r : is_simple x r -> (r <= 32)%nat -> exists l, In (x, l) ranks /\ In r l.
Proof.
  intros H R.
  assert (K : forall m n, (m <= r < m + n)%nat -> In r (seq m n)) by (intros; apply in_seq; lia).
  destruct x as [[|] [|] [|] [|] [|] [|] [|] [|]]; cbn in H; try contradiction;
  (eexists; split; [unfold ranks; cbn [In];
     first [left; reflexivity|right; left; reflexivity|do 2 right; left; reflexivity|do 3 right; left; reflexivity|do 4 right; left; reflexivity
       |do 5 right; left; reflexivity|do 6 right; left; reflexivity|do 7 right; left; reflexivity|do 8 right; left; reflexivity|do 9 right; left; reflexivity]
   |first [apply K; lia|left; lia]]).
Qed.
Lemma weyl_sizes : forallb (fun '(x, l) => forallb (fun r => good (weyl_size_simple x r) (product (degrees x r)) (2 * Z.of_nat r)) l) ranks = true.
Proof. vm_compute. reflexivity. Qed.
Lemma weyl_size_simple_ok x r : is_simple x r -> (r <= 32)%nat ->
  exists d, weyl_size_simple x r = Ok (d, false) /\ stands_for d (product (degrees x r)) /\ forall e, In e d -> e <= 2 * Z.of_nat r.
Proof.
  intros H R. destruct (simple_ranks x r H R) as (l & I1 & I2). apply good_ok.
  pose proof (proj1 (forallb_forall _ _) weyl_sizes _ I1) as F. cbv beta iota in F. apply (proj1 (forallb_forall _ _) F r I2).
Qed.
Lemma exps_bound d a v w b c : stands_for d v -> stands_for a w -> (forall e, In e d -> e <= b) -> (forall e, In e a -> e <= c) -> b + c < 128 ->
  exists r, size_mul d a = Ok r /\ stands_for r (v * w) /\ forall e, In e r -> e <= b + c.
Proof.
  intros (L1 & H1 & <-) (L2 & H2 & <-) Hb Hc B. unfold size_mul. rewrite exponents_ok by assumption. eexists. split; [reflexivity|].
  assert (X : forall i x y, get d i = Some x -> get a i = Some y -> 0 <= x + y <= b + c).
  { intros i x y Hx Hy. apply nth_error_In in Hx, Hy. pose proof (H1 x Hx). pose proof (H2 y Hy). pose proof (Hb x Hx). pose proof (Hc y Hy). lia. }
  rewrite (zipz_same _ Z.add) by (intros i x y Hx Hy; apply s8_small; specialize (X i x y Hx Hy); lia).
  assert (I : forall e, In e (zipz Z.add d a) -> 0 <= e <= b + c).
  { intros e He. apply In_zipz in He. destruct He as (i & x & y & Hx & Hy & ->). apply (X i); assumption. }
  split; [|intros e He; apply I in He; lia]. split; [rewrite zipz_length; lia|]. split; [intros e He; apply I in He; lia|].
  apply prod_add; auto; [intros e He; apply H1 in He; lia|intros e He; apply H2 in He; lia].
Qed.
Lemma weyl_size_ok lt : (forall x r, In (x, r) lt -> is_simple x r) -> (total_rank lt <= 32)%nat ->
  exists d, weyl_size lt = Ok (d, false) /\ stands_for d (weyl_order lt).
Proof.
  intros HS HR. unfold weyl_size. replace (size_of rounds 1) with (Ok (size_one, false)) by (vm_compute; reflexivity). cbn [bind].
  set (step := fun (r : res (list Z * bool)) '(x, rk) => _).
  assert (G : forall l d v k, (forall x r, In (x, r) l -> is_simple x r) -> stands_for d v -> (forall e, In e d -> e <= 2 * Z.of_nat k) ->
     (k + total_rank l <= 32)%nat -> exists d', fold_left step l (Ok (d, false)) = Ok (d', false) /\ stands_for d' (v * weyl_order l)).
  { induction l as [|[x r] l IH]; intros d v k Hl Hd Hk Hr.
    - exists d. split; [reflexivity|]. unfold weyl_order. cbn [map product fold_right]. rewrite Z.mul_1_r. exact Hd.
    - cbn [total_rank fold_right] in Hr. fold (total_rank l) in Hr.
      destruct (weyl_size_simple_ok x r (Hl x r (or_introl eq_refl)) ltac:(lia)) as (a & Ea & Sa & Ba).
      destruct (exps_bound d a v _ _ _ Hd Sa Hk Ba ltac:(lia)) as (d1 & E1 & S1 & B1).
      destruct (IH d1 _ (k + r)%nat (fun x r H => Hl x r (or_intror H)) S1) as (d' & E & S).
      + intros e He. apply B1 in He. lia.
      + lia.
      + exists d'. split; [|unfold weyl_order in *; cbn [map product fold_right] in *; rewrite Z.mul_assoc; exact S].
        cbn [fold_left]. unfold step at 2. cbn [bind]. rewrite Ea. cbn [bind]. rewrite E1. cbn [bind orb]. exact E. }
  destruct (G lt size_one 1 0%nat HS) as (d & E & S).
  - apply standsb_ok. reflexivity.
  - intros e He. cbn in He. intuition lia.
  - exact HR.
  - exists d. split; [exact E|]. rewrite Z.mul_1_l in S. exact S.
Qed.
