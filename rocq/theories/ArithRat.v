(** Proofs for class Rational of arithmetic.h. *)

From Coq Require Import ZArith List Bool Lia Znumtheory.
From Verif Require Import BitsModel BitsSpec BitsProofs ArithModel ArithSpec ArithProofs.
Import ListNotations.
Open Scope Z_scope.

Lemma gcd_pos_r a b : 0 < b -> 0 < Z.gcd a b.
Proof.
  intros H. pose proof (Z.gcd_nonneg a b). destruct (Z.eq_dec (Z.gcd a b) 0) as [E|]; [|lia].
  apply Z.gcd_eq_0_r in E. lia.
Qed.
Lemma gcd_le_r a b : 0 < b -> Z.gcd a b <= b.
Proof. intros H. apply Z.divide_pos_le; [lia|apply Z.gcd_divide_r]. Qed.
Lemma gcd_le_l a b : a <> 0 -> Z.gcd a b <= Z.abs a.
Proof. intros H. apply Z.divide_pos_le; [lia|]. apply Z.divide_abs_r, Z.gcd_divide_l. Qed.
Lemma div_l a b : 0 < b -> a = a / Z.gcd a b * Z.gcd a b.
Proof. intros H. pose proof (gcd_pos_r a b H). rewrite Z.mul_comm. apply Z_div_exact_full_2; [lia|].
  apply Zdivide_mod, Z.gcd_divide_l. Qed.
Lemma div_r a b : 0 < b -> b = b / Z.gcd a b * Z.gcd a b.
Proof. intros H. pose proof (gcd_pos_r a b H). rewrite Z.mul_comm. apply Z_div_exact_full_2; [lia|].
  apply Zdivide_mod, Z.gcd_divide_r. Qed.
Lemma quot_exact a g : 0 < g -> (g | a) -> Z.quot a g = a / g.
Proof. intros H [q ->]. rewrite Z.quot_mul, Z.div_mul by lia. reflexivity. Qed.

Lemma mul_s_ok n k : 0 <= k < 2 ^ 64 -> sint (n * k) -> mul_s n (s64 k) = Some (n * k).
Proof.
  intros Hk H. unfold mul_s. destruct (Z.eq_dec n 0) as [->|N].
  - rewrite !Z.mul_0_l. reflexivity.
  - assert (k < 2 ^ 63) by (uw; nia). rewrite s64_small by lia. apply chk_some. unfold sint in H. lia.
Qed.

(** ** normalize *)
Theorem normalize_correct n d : sint n -> 0 < d < 2 ^ 64 -> yields (normalize (mkr n d)) n d.
Proof.
  intros Hn Hd. unfold normalize, yields. cbn [rnum rden]. rewrite gcd_s_correct by auto.
  pose proof (gcd_pos_r n d) as G0. pose proof (gcd_le_r n d) as G1.
  pose proof (div_l n d) as D1. pose proof (div_r n d) as D2.
  set (g := Z.gcd n d) in *. specialize (G0 ltac:(lia)). specialize (G1 ltac:(lia)).
  specialize (D1 ltac:(lia)). specialize (D2 ltac:(lia)).
  assert (Gc : Z.gcd (n / g) (d / g) = 1) by (apply Z.gcd_div_gcd; [lia|reflexivity]).
  destruct (Z.ltb_spec 1 g) as [H|H].
  - assert (Q : Z.quot n (s64 g) = n / g).
    { destruct (Z.eq_dec n 0) as [->|N].
      - rewrite Z.div_0_l by lia. apply Z.quot_0_l. intros E.
        assert (u64 (s64 g) = g) by (rewrite u64_s64; apply u64_small; uw; lia). rewrite E in H0. cbn in H0. lia.
      - pose proof (gcd_le_l n d N) as G2. fold g in G2. rewrite s64_small by (uw; lia).
        apply quot_exact; [lia|apply Z.gcd_divide_l]. }
    rewrite Q. exists (mkr (n / g) (d / g)). split; [reflexivity|]. unfold lowest. cbn [rnum rden].
    assert (0 < d / g <= d) by nia.
    assert (Z.abs (n / g) <= Z.abs n) by (rewrite D1 at 2; rewrite Z.abs_mul; nia).
    split; [split; [uw; lia|split; [lia|exact Gc]]|]. rewrite D2 at 1. rewrite D1 at 2. ring.
  - exists (mkr n d). split; [reflexivity|]. unfold lowest. cbn [rnum rden].
    split; [|ring]. split; [auto|]. split; [auto|]. fold g. lia.
Qed.

Lemma normalize_id r : lowest r -> normalize r = Some r.
Proof.
  destruct r as [n d]. intros (A & B & C). cbn [rnum rden] in *. unfold normalize. cbn [rnum rden].
  rewrite gcd_s_correct, C by auto. reflexivity.
Qed.

Lemma make_yields n d p q : sint n -> 0 < d < 2 ^ 64 -> n * q = p * d -> yields (rat_make n d) p q.
Proof.
  intros Hn Hd E. destruct (normalize_correct n d Hn Hd) as (r & R1 & R2 & R3).
  exists r. split; [exact R1|]. split; [exact R2|].
  destruct R2 as (_ & P & _). apply (Z.mul_reg_r _ _ d); [lia|].
  replace (rnum r * q * d) with (rnum r * d * q) by ring. rewrite R3.
  replace (n * rden r * q) with (n * q * rden r) by ring. rewrite E. ring.
Qed.

(** ** sum and difference *)
Definition addsub_ok (op : Z -> Z -> Z) : Prop := forall x y k, op (x * k) (y * k) = op x y * k.

Lemma addsub_correct op r q : addsub_ok op -> lowest r -> lowest q ->
  let l := Z.lcm (rden r) (rden q) in
  l < 2 ^ 64 -> sint (rnum r * (l / rden r)) -> sint (rnum q * (l / rden q)) ->
  sint (op (rnum r * (l / rden r)) (rnum q * (l / rden q))) ->
  yields (rat_addsub op r q) (op (rnum r * rden q) (rnum q * rden r)) (rden r * rden q).
Proof.
  intros Hop Hr Hq l Hl H1 H2 H3. pose proof Hr as (R1 & R2 & R3). pose proof Hq as (Q1 & Q2 & Q3).
  unfold rat_addsub. rewrite normalize_id by auto.
  destruct (lcm_correct (rden r) (rden q)) as (m & E & _); [lia|lia|exact Hl|]. fold l in E.
  rewrite E. cbv iota.
  pose proof (lcm_gcd (rden r) (rden q)) as LG. fold l in LG. specialize (LG ltac:(lia) ltac:(lia)).
  pose proof (gcd_pos_r (rden r) (rden q) ltac:(lia)) as G0.
  set (g := Z.gcd (rden r) (rden q)) in *.
  assert (L0 : 0 < l) by nia.
  assert (D1 : l = l / rden r * rden r).
  { rewrite Z.mul_comm. apply Z_div_exact_full_2; [lia|]. apply Zdivide_mod, Z.divide_lcm_l. }
  assert (D2 : l = l / rden q * rden q).
  { rewrite Z.mul_comm. apply Z_div_exact_full_2; [lia|]. apply Zdivide_mod, Z.divide_lcm_r. }
  assert (K1 : 0 <= l / rden r < 2 ^ 64) by nia.
  assert (K2 : 0 <= l / rden q < 2 ^ 64) by nia.
  rewrite !mul_s_ok by auto. rewrite chk_some by (unfold sint in H3; lia).
  apply make_yields; [exact H3|lia|].
  assert (A1 : l / rden r * g = rden q).
  { apply (Z.mul_reg_r _ _ (rden r)); [lia|]. rewrite D1 in LG at 1. nia. }
  assert (A2 : l / rden q * g = rden r).
  { apply (Z.mul_reg_r _ _ (rden q)); [lia|]. rewrite D2 in LG at 1. nia. }
  rewrite <- LG. rewrite <- A1 at 2. rewrite <- A2 at 3. 
  replace (rnum r * (l / rden r * g)) with (rnum r * (l / rden r) * g) by ring.
  replace (rnum q * (l / rden q * g)) with (rnum q * (l / rden q) * g) by ring.
  rewrite Hop. ring.
Qed.

Theorem rat_add_correct r q : lowest r -> lowest q ->
  let l := Z.lcm (rden r) (rden q) in
  l < 2 ^ 64 -> sint (rnum r * (l / rden r)) -> sint (rnum q * (l / rden q)) ->
  sint (rnum r * (l / rden r) + rnum q * (l / rden q)) ->
  yields (rat_add r q) (rnum r * rden q + rnum q * rden r) (rden r * rden q).
Proof. intros. apply addsub_correct; auto. intros x y k. ring. Qed.
Theorem rat_sub_correct r q : lowest r -> lowest q ->
  let l := Z.lcm (rden r) (rden q) in
  l < 2 ^ 64 -> sint (rnum r * (l / rden r)) -> sint (rnum q * (l / rden q)) ->
  sint (rnum r * (l / rden r) - rnum q * (l / rden q)) ->
  yields (rat_sub r q) (rnum r * rden q - rnum q * rden r) (rden r * rden q).
Proof. intros. apply addsub_correct; auto. intros x y k. ring. Qed.

(** ** product *)
Theorem rat_mul_correct_partial r q : lowest r -> lowest q ->
  let d := Z.gcd (rnum r) (rden q) in let e := Z.gcd (rnum q) (rden r) in
  (0 <= rnum r \/ d = 1) -> (0 <= rnum q \/ e = 1) ->
  sint (rnum r / d * (rnum q / e)) -> rden r / e * (rden q / d) < 2 ^ 64 ->
  yields (rat_mul r q) (rnum r * rnum q) (rden r * rden q).
Proof.
  intros Hr Hq d e Hd He H1 H2. pose proof Hr as (R1 & R2 & R3). pose proof Hq as (Q1 & Q2 & Q3).
  unfold rat_mul. rewrite !normalize_id by auto. rewrite !gcd_s_correct by auto. fold d e. cbv zeta.
  pose proof (gcd_pos_r (rnum r) (rden q) ltac:(lia)) as Gd. fold d in Gd.
  pose proof (gcd_pos_r (rnum q) (rden r) ltac:(lia)) as Ge. fold e in Ge.
  pose proof (div_l (rnum r) (rden q) ltac:(lia)) as D1. fold d in D1.
  pose proof (div_r (rnum r) (rden q) ltac:(lia)) as D2. fold d in D2.
  pose proof (div_l (rnum q) (rden r) ltac:(lia)) as E1. fold e in E1.
  pose proof (div_r (rnum q) (rden r) ltac:(lia)) as E2. fold e in E2.
  assert (N1 : (if d =? 1 then rnum r else s64 (u64 (rnum r) / d)) = rnum r / d).
  { destruct (Z.eqb_spec d 1) as [->|]; [rewrite Z.div_1_r; reflexivity|].
    destruct Hd as [Hd|]; [|lia]. rewrite u64_small by (uw; lia). apply s64_small. uw.
    split; [pose proof (Z.div_pos (rnum r) d ltac:(lia) ltac:(lia)); lia|]. nia. }
  assert (N2 : (if e =? 1 then rnum q else s64 (u64 (rnum q) / e)) = rnum q / e).
  { destruct (Z.eqb_spec e 1) as [->|]; [rewrite Z.div_1_r; reflexivity|].
    destruct He as [He|]; [|lia]. rewrite u64_small by (uw; lia). apply s64_small. uw.
    split; [pose proof (Z.div_pos (rnum q) e ltac:(lia) ltac:(lia)); lia|]. nia. }
  assert (N3 : (if d =? 1 then rden q else rden q / d) = rden q / d).
  { destruct (Z.eqb_spec d 1) as [->|]; [rewrite Z.div_1_r|]; reflexivity. }
  assert (N4 : (if e =? 1 then rden r else rden r / e) = rden r / e).
  { destruct (Z.eqb_spec e 1) as [->|]; [rewrite Z.div_1_r|]; reflexivity. }
  rewrite N1, N2, N3, N4. unfold mul_s. rewrite chk_some by (unfold sint in H1; lia).
  assert (P1 : 0 < rden q / d) by nia. assert (P2 : 0 < rden r / e) by nia.
  rewrite u64_small by (uw; nia).
  apply make_yields; [exact H1|nia|].
  set (nr := rnum r / d) in *. set (nq := rnum q / e) in *. set (dq := rden q / d) in *. set (dr := rden r / e) in *.
  rewrite D1, D2, E1, E2. ring.
Qed.

(** ** quotient *)
Theorem rat_div_correct r q : lowest r -> lowest q -> rnum q <> 0 ->
  let d := Z.gcd (rden r) (rden q) in let g := Z.gcd (rnum r) (rnum q) in
  sint (rnum r / g * (rden q / d)) -> rden r / d * (Z.abs (rnum q) / g) < 2 ^ 64 ->
  yields (rat_div r q) (rnum r * rden q) (rden r * rnum q).
Proof.
  intros Hr Hq N0 d g H1 H2. pose proof Hr as (R1 & R2 & R3). pose proof Hq as (Q1 & Q2 & Q3).
  unfold rat_div. rewrite !normalize_id by auto.
  rewrite unsigned_gcd_correct by lia. fold d. cbv zeta.
  assert (Ab : abs_s (rnum q) = Some (Z.abs (rnum q))).
  { unfold abs_s. destruct (Z.ltb_spec (rnum q) 0); [rewrite chk_some by (uw; lia)|]; f_equal; lia. }
  rewrite Ab. rewrite gcd_s_correct by (auto; uw; lia).
  rewrite Z.gcd_abs_r. fold g.
  pose proof (gcd_pos_r (rden r) (rden q) ltac:(lia)) as Gd. fold d in Gd.
  assert (Gg : 0 < g).
  { unfold g. rewrite <- Z.gcd_abs_r. apply gcd_pos_r. lia. }
  assert (Gl : g <= Z.abs (rnum q)).
  { unfold g. rewrite <- Z.gcd_abs_r. apply gcd_le_r. lia. }
  rewrite s64_small by (uw; lia).
  pose proof (div_l (rden r) (rden q) ltac:(lia)) as D1. fold d in D1.
  pose proof (div_r (rden r) (rden q) ltac:(lia)) as D2. fold d in D2.
  assert (E1 : rnum r = rnum r / g * g).
  { rewrite Z.mul_comm. apply Z_div_exact_full_2; [lia|]. apply Zdivide_mod, Z.gcd_divide_l. }
  assert (E2 : rnum q = rnum q / g * g).
  { rewrite Z.mul_comm. apply Z_div_exact_full_2; [lia|]. apply Zdivide_mod, Z.gcd_divide_r. }
  assert (N1 : (if g =? 1 then rnum q else Z.quot (rnum q) g) = rnum q / g).
  { destruct (Z.eqb_spec g 1) as [->|]; [rewrite Z.div_1_r; reflexivity|].
    apply quot_exact; [lia|apply Z.gcd_divide_r]. }
  assert (N2 : (if g =? 1 then rnum r else Z.quot (rnum r) g) = rnum r / g).
  { destruct (Z.eqb_spec g 1) as [->|]; [rewrite Z.div_1_r; reflexivity|].
    apply quot_exact; [lia|apply Z.gcd_divide_l]. }
  assert (N3 : (if d =? 1 then rden q else rden q / d) = rden q / d).
  { destruct (Z.eqb_spec d 1) as [->|]; [rewrite Z.div_1_r|]; reflexivity. }
  assert (N4 : (if d =? 1 then rden r else rden r / d) = rden r / d).
  { destruct (Z.eqb_spec d 1) as [->|]; [rewrite Z.div_1_r|]; reflexivity. }
  rewrite N1, N2, N3, N4.
  assert (P1 : 0 < rden q / d <= rden q) by nia. assert (P2 : 0 < rden r / d) by nia.
  assert (A1 : Z.abs (rnum q) / g = Z.abs (rnum q / g)).
  { rewrite E2 at 1. rewrite Z.abs_mul, (Z.abs_eq g), Z.div_mul by lia. reflexivity. }
  rewrite A1 in H2.
  set (nr := rnum r / g) in *. set (nq := rnum q / g) in *. set (dq := rden q / d) in *. set (dr := rden r / d) in *.
  assert (Nr : sint nr).
  { unfold sint in *. rewrite E1 in R1. clear - R1 Gg. split; nia. }
  assert (Nq : sint nq).
  { unfold sint in *. rewrite E2 in Q1. clear - Q1 Gg. split; nia. }
  destruct (Z.ltb_spec 0 nq).
  - rewrite mul_s_ok by (auto; lia).
    rewrite u64_small by (unfold word; nia). apply make_yields; [exact H1|nia|].
    rewrite D1, D2, E1, E2. ring.
  - assert (Zq : nq <> 0) by nia.
    rewrite (chk_some (- nr)) by (unfold sint in Nr; lia).
    rewrite mul_s_ok by (try lia; unfold sint in *; lia).
    rewrite (chk_some (- nq)) by (unfold sint in Nq; lia).
    rewrite u64_small by (unfold word; nia). apply make_yields; [unfold sint in *; lia|nia|].
    rewrite D1, D2, E1, E2. ring.
Qed.

(** ** remainder *)
Lemma abs_ok x : sint x -> abs_s x = Some (Z.abs x).
Proof.
  intros H. unfold abs_s. destruct (Z.ltb_spec x 0); [rewrite chk_some by (uw; lia)|]; f_equal; lia.
Qed.

Theorem rat_mod_correct r q : lowest r -> lowest q -> rnum q <> 0 ->
  let d := Z.gcd (rden r) (rden q) in
  sint (rnum r * (rden q / d)) -> rden r / d * Z.abs (rnum q) < 2 ^ 63 -> rden r * (rden q / d) < 2 ^ 64 ->
  yields (rat_mod r q) ((rnum r * rden q) mod (rden r * Z.abs (rnum q))) (rden r * rden q).
Proof.
  intros Hr Hq N0 d H1 H2 H3. pose proof Hr as (R1 & R2 & R3). pose proof Hq as (Q1 & Q2 & Q3).
  unfold rat_mod. rewrite unsigned_gcd_correct by lia. fold d.
  rewrite abs_ok by auto.
  pose proof (gcd_pos_r (rden r) (rden q) ltac:(lia)) as Gd. fold d in Gd.
  pose proof (div_l (rden r) (rden q) ltac:(lia)) as D1. fold d in D1.
  pose proof (div_r (rden r) (rden q) ltac:(lia)) as D2. fold d in D2.
  assert (P1 : 0 < rden q / d <= rden q) by nia. assert (P2 : 0 < rden r / d) by nia.
  assert (Body : yields (let! x := mul_s (rnum r) (s64 (rden q / d)) in
    let! m := remainder x (s64 (u64 (rden r / d * Z.abs (rnum q)))) in
    rat_make m (u64 (rden r * (rden q / d)))) ((rnum r * rden q) mod (rden r * Z.abs (rnum q))) (rden r * rden q)).
  { rewrite mul_s_ok by (auto; lia).
    assert (W1 : 0 < rden r / d * Z.abs (rnum q)) by nia.
    rewrite u64_small by (uw; lia).
    rewrite remainder_exact by (unfold sint in *; uw; lia).
    pose proof (Z.mod_pos_bound (rnum r * (rden q / d)) (rden r / d * Z.abs (rnum q)) W1) as M.
    rewrite s64_small by lia. rewrite (u64_small (rden r * _)) by (unfold word; nia).
    apply make_yields; [unfold sint; lia|nia|].
    set (dq := rden q / d) in *. set (dr := rden r / d) in *.
    assert (EM : (rnum r * rden q) mod (rden r * Z.abs (rnum q))
                 = (rnum r * dq) mod (dr * Z.abs (rnum q)) * d).
    { rewrite <- Z.mul_mod_distr_r by lia. f_equal; [rewrite D2|rewrite D1]; ring. }
    rewrite EM. rewrite D2 at 1. ring. }
  destruct (Z.eqb_spec d 1) as [E|E]; [|exact Body].
  rewrite E, !Z.div_1_r in Body. exact Body.
Qed.

(** ** operations with an integer *)
Theorem rat_mul_n_correct r n : lowest r -> sint n ->
  sint (rnum r * (n / Z.gcd (rden r) n)) -> yields (rat_mul_n r n) (rnum r * n) (rden r).
Proof.
  intros Hr Hn H1. pose proof Hr as (R1 & R2 & R3). unfold rat_mul_n.
  destruct (Z.eqb_spec n 0) as [->|N0].
  - exists (mkr 0 1). split; [reflexivity|]. unfold lowest. cbn [rnum rden]. split; [|ring].
    split; [uw; lia|]. split; [lia|reflexivity].
  - rewrite normalize_id by auto.
    assert (X1 : (if n <? 0 then chk (- n) else Some n) = Some (Z.abs n)).
    { destruct (Z.ltb_spec n 0); [rewrite chk_some by (uw; lia)|]; f_equal; lia. }
    assert (X2 : (if n <? 0 then chk (- rnum r) else Some (rnum r)) = Some (Z.sgn n * rnum r)).
    { destruct (Z.ltb_spec n 0); [rewrite chk_some by (uw; lia)|]; f_equal.
      - rewrite Z.sgn_neg by lia. ring.
      - rewrite Z.sgn_pos by lia. ring. }
    rewrite X1, X2. rewrite unsigned_gcd_correct by (uw; lia). rewrite Z.gcd_abs_r.
    set (g := Z.gcd (rden r) n) in *.
    assert (Gg : 0 < g) by (unfold g; rewrite Z.gcd_comm; apply gcd_pos_r; lia).
    assert (E1 : n = n / g * g).
    { rewrite Z.mul_comm. apply Z_div_exact_full_2; [lia|]. apply Zdivide_mod, Z.gcd_divide_r. }
    assert (E2 : rden r = rden r / g * g).
    { rewrite Z.mul_comm. apply Z_div_exact_full_2; [lia|]. apply Zdivide_mod, Z.gcd_divide_l. }
    assert (A1 : Z.abs n / g = Z.abs (n / g)).
    { rewrite E1 at 1. rewrite Z.abs_mul, (Z.abs_eq g), Z.div_mul by lia. reflexivity. }
    rewrite A1.
    assert (Gc : Z.gcd (rden r / g) (n / g) = 1) by (apply Z.gcd_div_gcd; [lia|reflexivity]).
    set (n' := n / g) in *. set (d' := rden r / g) in *.
    assert (S : Z.sgn n * rnum r * Z.abs n' = rnum r * n').
    { assert (Z.sgn n = Z.sgn n') by (rewrite E1, Z.sgn_mul, (Z.sgn_pos g) by lia; ring).
      rewrite H. assert (B : Z.sgn n' * Z.abs n' = n') by lia.
      rewrite <- B at 3. ring. }
    rewrite mul_s_ok; [|uw; nia|rewrite S; auto]. rewrite S.
    eexists. split; [reflexivity|]. unfold lowest. cbn [rnum rden].
    split; [|rewrite E1 at 1; rewrite E2; ring].
    split; [exact H1|]. split; [nia|].
    assert (C1 : Z.gcd (rnum r) d' = 1).
    { apply Zgcd_1_rel_prime. apply rel_prime_sym. apply rel_prime_div with (p := rden r).
      - apply rel_prime_sym, Zgcd_1_rel_prime. exact R3.
      - exists g. lia. }
    apply Zgcd_1_rel_prime. apply rel_prime_sym, rel_prime_mult.
    + apply rel_prime_sym, Zgcd_1_rel_prime. exact C1.
    + apply Zgcd_1_rel_prime. exact Gc.
Qed.

Theorem rat_div_n_correct r n : lowest r -> sint n -> n <> 0 ->
  rden r * (Z.abs n / Z.gcd (rnum r) n) < 2 ^ 64 -> yields (rat_div_n r n) (rnum r) (rden r * n).
Proof.
  intros Hr Hn N0 H1. pose proof Hr as (R1 & R2 & R3). unfold rat_div_n.
  rewrite normalize_id by auto.
  assert (X1 : (if n <? 0 then chk (- n) else Some n) = Some (Z.abs n)).
  { destruct (Z.ltb_spec n 0); [rewrite chk_some by (uw; lia)|]; f_equal; lia. }
  assert (X2 : (if n <? 0 then chk (- rnum r) else Some (rnum r)) = Some (Z.sgn n * rnum r)).
  { destruct (Z.ltb_spec n 0); [rewrite chk_some by (uw; lia)|]; f_equal.
    - rewrite Z.sgn_neg by lia. ring.
    - rewrite Z.sgn_pos by lia. ring. }
  assert (Sg : Z.sgn n = 1 \/ Z.sgn n = -1) by lia.
  rewrite X1, X2. rewrite abs_ok by (unfold sint in *; destruct Sg as [Sg|Sg]; rewrite ?Sg; lia).
  rewrite unsigned_gcd_correct by (unfold sint in *; destruct Sg as [Sg|Sg]; rewrite ?Sg; lia).
  assert (EG : Z.gcd (Z.abs (Z.sgn n * rnum r)) (Z.abs n) = Z.gcd (rnum r) n).
  { rewrite Z.gcd_abs_l, Z.gcd_abs_r. destruct Sg as [->| ->].
    - rewrite Z.mul_1_l. reflexivity.
    - replace (-1 * rnum r) with (- rnum r) by ring. apply Z.gcd_opp_l. }
  rewrite EG. set (g := Z.gcd (rnum r) n) in *.
  assert (Gg : 0 < g) by (unfold g; rewrite <- Z.gcd_abs_r; apply gcd_pos_r; lia).
  assert (Gl : g <= Z.abs n) by (unfold g; rewrite <- Z.gcd_abs_r; apply gcd_le_r; lia).
  rewrite s64_small by (uw; lia).
  assert (E1 : n = n / g * g).
  { rewrite Z.mul_comm. apply Z_div_exact_full_2; [lia|]. apply Zdivide_mod, Z.gcd_divide_r. }
  assert (E2 : rnum r = rnum r / g * g).
  { rewrite Z.mul_comm. apply Z_div_exact_full_2; [lia|]. apply Zdivide_mod, Z.gcd_divide_l. }
  assert (A1 : Z.abs n / g = Z.abs (n / g)).
  { rewrite E1 at 1. rewrite Z.abs_mul, (Z.abs_eq g), Z.div_mul by lia. reflexivity. }
  assert (Gc : Z.gcd (rnum r / g) (n / g) = 1) by (apply Z.gcd_div_gcd; [lia|reflexivity]).
  assert (Q1 : Z.quot (Z.sgn n * rnum r) g = Z.sgn n * (rnum r / g)).
  { rewrite E2 at 1. rewrite Z.mul_assoc. apply Z.quot_mul. lia. }
  assert (Q2 : Z.quot (Z.abs n) g = Z.abs (n / g)).
  { rewrite quot_exact, A1; [reflexivity|lia|]. apply Z.divide_abs_r, Z.gcd_divide_r. }
  rewrite Q1, Q2. rewrite A1 in H1.
  assert (Sn : Z.sgn n = Z.sgn (n / g)) by (rewrite E1 at 1; rewrite Z.sgn_mul, (Z.sgn_pos g) by lia; ring).
  set (n' := n / g) in *. set (m' := rnum r / g) in *.
  assert (P : 0 < Z.abs n') by nia.
  rewrite u64_small by (uw; nia).
  eexists. split; [reflexivity|]. unfold lowest. cbn [rnum rden].
  assert (Lm : Z.abs m' <= Z.abs (rnum r)) by (rewrite E2, Z.abs_mul; nia).
  split; [split; [|split]|].
  - unfold sint in *. destruct Sg as [->| ->]; lia.
  - nia.
  - assert (C1 : Z.gcd m' (rden r) = 1).
    { apply Zgcd_1_rel_prime. apply rel_prime_div with (p := rnum r).
      - apply Zgcd_1_rel_prime. exact R3.
      - exists g. lia. }
    assert (C2 : Z.gcd m' (rden r * Z.abs n') = 1).
    { apply Zgcd_1_rel_prime, rel_prime_mult; apply Zgcd_1_rel_prime; [exact C1|].
      rewrite Z.gcd_abs_r. exact Gc. }
    destruct Sg as [->| ->].
    + rewrite Z.mul_1_l. exact C2.
    + replace (-1 * m') with (- m') by ring. rewrite Z.gcd_opp_l. exact C2.
  - rewrite E1 at 2. rewrite E2. rewrite Sn.
    assert (B' : Z.sgn n' * n' = Z.abs n') by lia.
    transitivity (m' * rden r * g * (Z.sgn n' * n')); [ring|]. rewrite B'. ring.
Qed.

Lemma gcd_mod_mult a d k : 0 < d -> 0 < k -> Z.gcd (a mod (d * k)) d = Z.gcd a d.
Proof.
  intros Hd Hk. rewrite Z.mod_eq by nia.
  replace (a - d * k * (a / (d * k))) with (a + - (k * (a / (d * k))) * d) by ring.
  rewrite (Z.gcd_comm _ d), Z.gcd_add_mult_diag_r, Z.gcd_comm. reflexivity.
Qed.

Theorem rat_mod_n_correct r n : lowest r -> sint n -> n <> 0 -> rden r * Z.abs n < 2 ^ 63 ->
  rat_mod_n r n = Some (mkr (rnum r mod (rden r * Z.abs n)) (rden r))
  /\ lowest (mkr (rnum r mod (rden r * Z.abs n)) (rden r)).
Proof.
  intros Hr Hn N0 H. pose proof Hr as (R1 & R2 & R3). unfold rat_mod_n.
  rewrite normalize_id, abs_ok by auto.
  assert (0 < rden r * Z.abs n) by nia.
  rewrite u64_small by (uw; lia). rewrite remainder_exact by (unfold sint in *; uw; lia).
  pose proof (Z.mod_pos_bound (rnum r) (rden r * Z.abs n) ltac:(lia)).
  rewrite s64_small by lia. split; [reflexivity|]. unfold lowest. cbn [rnum rden].
  split; [unfold sint; lia|]. split; [auto|]. rewrite gcd_mod_mult by lia. exact R3.
Qed.

Theorem rat_mod1_correct r : lowest r -> rden r <= 2 ^ 63 ->
  rat_mod1 r = Some (mkr (rnum r mod rden r) (rden r)) /\ lowest (mkr (rnum r mod rden r) (rden r)).
Proof.
  intros Hr H. pose proof Hr as (R1 & R2 & R3). unfold rat_mod1.
  rewrite remainder_exact by (unfold sint in *; uw; lia).
  pose proof (Z.mod_pos_bound (rnum r) (rden r) ltac:(lia)).
  rewrite s64_small by lia. split; [reflexivity|]. unfold lowest. cbn [rnum rden].
  split; [unfold sint; lia|]. split; [auto|].
  rewrite <- (gcd_mod_mult (rnum r) (rden r) 1) in R3 by lia. rewrite Z.mul_1_r in R3. exact R3.
Qed.

Theorem rat_floor_correct r : sint (rnum r) -> 0 < rden r < 2 ^ 64 -> rat_floor r = Some (rnum r / rden r).
Proof. intros H1 H2. unfold rat_floor. apply divide_exact; unfold sint in *; uw; lia. Qed.

Theorem rat_ceil_correct r : sint (rnum r) -> 0 < rden r < 2 ^ 64 ->
  rat_ceil r = Some (- (- rnum r / rden r)).
Proof.
  intros H1 H2. unfold rat_ceil. rewrite chk_some by (unfold sint in *; lia).
  rewrite divide_exact by (unfold sint in *; uw; lia).
  assert (Bd : forall a b, 0 < b -> -2 ^ 63 < a < 2 ^ 63 -> - 2 ^ 63 < a / b < 2 ^ 63).
  { intros a b Hb [Ha1 Ha2]. split.
    - apply Z.lt_le_trans with (- 2 ^ 63 + 1); [lia|]. apply Z.div_le_lower_bound; [lia|]. nia.
    - apply Z.div_lt_upper_bound; [lia|]. nia. }
  specialize (Bd (- rnum r) (rden r) ltac:(lia) ltac:(unfold sint in *; lia)).
  apply chk_some. lia.
Qed.

Theorem rat_quotient_correct r n : sint (rnum r) -> 0 < rden r -> 0 < n -> n * rden r < 2 ^ 64 ->
  rat_quotient r n = Some (rnum r / (n * rden r)).
Proof.
  intros H1 H2 H3 H4. unfold rat_quotient. rewrite u64_small by (uw; nia).
  apply divide_exact; unfold sint in *; uw; nia.
Qed.

Theorem rat_cmp_correct op r q : sint (rnum r * rden q) -> sint (rnum q * rden r) ->
  0 < rden r < 2 ^ 64 -> 0 < rden q < 2 ^ 64 ->
  rat_cmp op r q = Some (op (rnum r * rden q) (rnum q * rden r)).
Proof.
  intros H1 H2 H3 H4. unfold rat_cmp. rewrite mul_s_ok by (auto; lia).
  replace (mul_s (s64 (rden r)) (rnum q)) with (mul_s (rnum q) (s64 (rden r)))
    by (unfold mul_s; rewrite Z.mul_comm; reflexivity).
  rewrite mul_s_ok by (auto; lia). reflexivity.
Qed.

Lemma u64_mod_eq x y : (W64 | x - y) -> u64 x = u64 y.
Proof.
  intros [k E]. unfold u64. replace x with (y + k * W64) by lia. apply Z.mod_add. unfold W64. lia.
Qed.
Lemma s64_mod_eq x y : (W64 | x - y) -> s64 x = s64 y.
Proof.
  intros [k E]. unfold s64. replace (x + H63) with (y + H63 + k * W64) by lia.
  rewrite Z.mod_add by (unfold W64; lia). reflexivity.
Qed.
Lemma u64_diff x : (W64 | u64 x - x).
Proof. exists (- (x / W64)). unfold u64. rewrite Z.mod_eq by (unfold W64; lia). ring. Qed.

Lemma addn_num a n d : sint (a + n * d) -> s64 (u64 a + u64 n * d) = a + n * d.
Proof.
  intros H. transitivity (s64 (a + n * d)); [|apply s64_small; unfold sint in H; lia].
  apply s64_mod_eq. destruct (u64_diff a) as [k K], (u64_diff n) as [l L].
  exists (k + l * d). replace (u64 a) with (a + k * W64) by lia. replace (u64 n) with (n + l * W64) by lia. ring.
Qed.
Lemma subn_num a n d : sint (a - n * d) -> s64 (u64 a - u64 n * d) = a - n * d.
Proof.
  intros H. transitivity (s64 (a - n * d)); [|apply s64_small; unfold sint in H; lia].
  apply s64_mod_eq. destruct (u64_diff a) as [k K], (u64_diff n) as [l L].
  exists (k - l * d). replace (u64 a) with (a + k * W64) by lia. replace (u64 n) with (n + l * W64) by lia. ring.
Qed.

Theorem rat_add_n_correct r n : lowest r -> sint (rnum r + n * rden r) ->
  rat_add_n r n = mkr (rnum r + n * rden r) (rden r) /\ lowest (rat_add_n r n).
Proof.
  intros (R1 & R2 & R3) H. unfold rat_add_n. rewrite addn_num by auto. split; [reflexivity|].
  unfold lowest. cbn [rnum rden]. split; [auto|]. split; [auto|].
  rewrite (Z.gcd_comm _ (rden r)), Z.gcd_add_mult_diag_r, Z.gcd_comm. exact R3.
Qed.
Theorem rat_sub_n_correct r n : lowest r -> sint (rnum r - n * rden r) ->
  rat_sub_n r n = mkr (rnum r - n * rden r) (rden r) /\ lowest (rat_sub_n r n).
Proof.
  intros (R1 & R2 & R3) H. unfold rat_sub_n. rewrite subn_num by auto. split; [reflexivity|].
  unfold lowest. cbn [rnum rden]. split; [auto|]. split; [auto|].
  replace (rnum r - n * rden r) with (rnum r + (- n) * rden r) by ring.
  rewrite (Z.gcd_comm _ (rden r)), Z.gcd_add_mult_diag_r, Z.gcd_comm. exact R3.
Qed.

Theorem rat_neg_correct r : lowest r -> rat_neg r = Some (mkr (- rnum r) (rden r)) /\ lowest (mkr (- rnum r) (rden r)).
Proof.
  intros (R1 & R2 & R3).
  assert (L : lowest (mkr (- rnum r) (rden r))).
  { unfold lowest. cbn [rnum rden]. rewrite Z.gcd_opp_l. unfold sint in *. repeat split; auto; lia. }
  split; [|exact L]. unfold rat_neg. rewrite chk_some by (unfold sint in *; lia). apply normalize_id, L.
Qed.

Theorem rat_inverse_correct r : lowest r -> rnum r <> 0 -> rden r < 2 ^ 63 ->
  yields (rat_inverse r) (rden r) (rnum r).
Proof.
  intros (R1 & R2 & R3) N H. unfold rat_inverse. destruct (Z.ltb_spec 0 (rnum r)).
  - rewrite s64_small by lia. apply make_yields; unfold sint in *; lia.
  - rewrite chk_some by (unfold sint in *; lia).
    rewrite s64_u64, s64_small by lia. apply make_yields; unfold sint in *; lia.
Qed.

(** ** powers *)
Lemma gcd_pow_1 a b n : 0 <= n -> Z.gcd a b = 1 -> Z.gcd (a ^ n) (b ^ n) = 1.
Proof.
  intros Hn H. apply Zgcd_1_rel_prime in H.
  assert (X : forall x y k, 0 <= k -> rel_prime x y -> rel_prime x (y ^ k)).
  { intros x y k Hk Hxy. apply natlike_ind with (x := k); [| |exact Hk].
    - apply rel_prime_sym, rel_prime_1.
    - intros j Hj IH. rewrite Z.pow_succ_r by lia. apply rel_prime_mult; auto. }
  apply Zgcd_1_rel_prime. apply X; [lia|]. apply rel_prime_sym, X; [lia|]. apply rel_prime_sym, H.
Qed.

Theorem rat_pow_correct r n : lowest r -> 0 <= n < 2 ^ 31 ->
  Z.abs (rnum r) ^ n < 2 ^ 63 -> rden r ^ n < 2 ^ 64 ->
  rat_pow r n = Some (mkr (rnum r ^ n) (rden r ^ n)) /\ lowest (mkr (rnum r ^ n) (rden r ^ n)).
Proof.
  intros Hr Hn H1 H2. pose proof Hr as (R1 & R2 & R3). unfold rat_pow.
  rewrite normalize_id, abs_ok by auto.
  rewrite (proj2 (Z.ltb_ge _ _)) by lia. cbn [andb].
  assert (Pa : 0 <= Z.abs (rnum r) ^ n) by (apply Z.pow_nonneg; lia).
  assert (Pb : 0 < rden r ^ n) by (apply Z.pow_pos_nonneg; lia).
  rewrite !power_correct by (unfold word; unfold sint in *; lia).
  rewrite !Z.mod_small by lia. rewrite s64_small by lia.
  assert (L : lowest (mkr (rnum r ^ n) (rden r ^ n))).
  { unfold lowest. cbn [rnum rden]. split; [|split; [lia|apply gcd_pow_1; [lia|exact R3]]].
    rewrite <- Z.abs_pow in H1. unfold sint. lia. }
  split; [|exact L].
  destruct (Z.leb_spec 0 (rnum r)) as [P|P]; cbn [orb].
  - rewrite Z.abs_eq by lia. reflexivity.
  - rewrite Z.rem_mod_nonneg by lia. destruct (Z.eqb_spec (n mod 2) 0) as [E|E].
    + rewrite (Z.pow_even_abs (rnum r) n); [reflexivity|]. rewrite Z.mod_eq in E by lia.
      exists (n / 2). lia.
    + rewrite chk_some by lia. f_equal. f_equal.
      assert (O : Z.Odd n).
      { exists (n / 2). rewrite (Z.div_mod n 2) at 1 by lia. pose proof (Z.mod_pos_bound n 2). lia. }
      replace (rnum r) with (- Z.abs (rnum r)) at 2 by lia.
      rewrite Z.pow_opp_odd by exact O. reflexivity.
Qed.

(** negative exponents: the inverse power *)
Theorem rat_pow_neg_correct r n : lowest r -> rnum r <> 0 -> 0 < n < 2 ^ 31 ->
  Z.abs (rnum r) ^ n < 2 ^ 64 -> rden r ^ n < 2 ^ 63 ->
  yields (rat_pow r (- n)) (rden r ^ n) (rnum r ^ n).
Proof.
  intros Hr N0 Hn H1 H2. pose proof Hr as (R1 & R2 & R3). unfold rat_pow.
  rewrite normalize_id, abs_ok by auto.
  rewrite (proj2 (Z.ltb_lt _ _)) by lia. rewrite (proj2 (Z.eqb_neq (rnum r) 0)) by lia.
  rewrite (proj2 (Z.eqb_neq (- n) _)) by lia. cbn [andb orb].
  rewrite Z.opp_involutive.
  assert (Pa : 0 < Z.abs (rnum r) ^ n) by (apply Z.pow_pos_nonneg; lia).
  assert (Pb : 0 < rden r ^ n) by (apply Z.pow_pos_nonneg; lia).
  rewrite !power_correct by (unfold word; unfold sint in *; lia).
  rewrite !Z.mod_small by lia. rewrite s64_small by lia.
  assert (G : Z.gcd (rden r ^ n) (Z.abs (rnum r) ^ n) = 1).
  { apply gcd_pow_1; [lia|]. rewrite Z.gcd_abs_r, Z.gcd_comm. exact R3. }
  destruct (Z.leb_spec 0 (rnum r)) as [P|P]; cbn [orb].
  - eexists. split; [reflexivity|]. unfold lowest. cbn [rnum rden].
    split; [split; [unfold sint; lia|split; [lia|exact G]]|]. rewrite Z.abs_eq by lia. ring.
  - rewrite Z.rem_mod_nonneg by lia. destruct (Z.eqb_spec (n mod 2) 0) as [E|E].
    + eexists. split; [reflexivity|]. unfold lowest. cbn [rnum rden].
      split; [split; [unfold sint; lia|split; [lia|exact G]]|].
      rewrite (Z.pow_even_abs (rnum r) n); [ring|]. rewrite Z.mod_eq in E by lia.
      exists (n / 2). lia.
    + rewrite chk_some by lia.
      assert (O : Z.Odd n).
      { exists (n / 2). rewrite (Z.div_mod n 2) at 1 by lia. pose proof (Z.mod_pos_bound n 2). lia. }
      eexists. split; [reflexivity|]. unfold lowest. cbn [rnum rden].
      split; [split; [unfold sint; lia|split; [lia|rewrite Z.gcd_opp_l; exact G]]|].
      replace (rnum r) with (- Z.abs (rnum r)) at 1 by lia.
      rewrite Z.pow_opp_odd by exact O. ring.
Qed.

(** ** Split_integer: pairs (ev1, evm1) of equal parity *)
Lemma split_e_make a b : split_e (split_make a b) = a.
Proof. unfold split_e, split_make. cbn [ev1 evm1]. replace (a + b + (a - b)) with (a * 2) by ring. apply Z.quot_mul. lia. Qed.
Lemma split_s_make a b : split_s (split_make a b) = b.
Proof. unfold split_s, split_make. cbn [ev1 evm1]. replace (a + b - (a - b)) with (b * 2) by ring. apply Z.quot_mul. lia. Qed.
Lemma split_ext x1 x2 y1 y2 : x1 = y1 -> x2 = y2 -> mks x1 x2 = mks y1 y2.
Proof. congruence. Qed.
Ltac sp := intros; unfold split_add, split_sub, split_neg, split_mul, split_mul_n, split_times_s,
  split_times_1_s, split_times_1_plus_s, split_make; cbn [ev1 evm1]; apply split_ext; ring.
Lemma split_add_make a b c d : split_add (split_make a b) (split_make c d) = split_make (a + c) (b + d).
Proof. sp. Qed.
Lemma split_sub_make a b c d : split_sub (split_make a b) (split_make c d) = split_make (a - c) (b - d).
Proof. sp. Qed.
Lemma split_neg_make a b : split_neg (split_make a b) = split_make (- a) (- b).
Proof. sp. Qed.
Lemma split_mul_make a b c d : split_mul (split_make a b) (split_make c d) = split_make (a * c + b * d) (a * d + b * c).
Proof. sp. Qed.
Lemma split_mul_n_make a b n : split_mul_n (split_make a b) n = split_make (a * n) (b * n).
Proof. sp. Qed.
Lemma split_times_s_make a b : split_times_s (split_make a b) = split_make b a.
Proof. sp. Qed.
Lemma split_times_1_s_make a b : split_times_1_s (split_make a b) = split_make (a - b) (b - a).
Proof. sp. Qed.
Lemma split_times_1_plus_s_make a b : split_times_1_plus_s (split_make a b) = split_make (a + b) (a + b).
Proof. sp. Qed.
