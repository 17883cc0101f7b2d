(** Proofs for bitCount, firstBit and lastBit. *)

From Coq Require Import ZArith List Bool Lia.
From Verif Require Import BitsModel BitsSpec.
Import ListNotations.
Open Scope Z_scope.

(** Numbers written with nibbles (least significant first). *)
Fixpoint nv (l : list Z) : Z := match l with [] => 0 | x :: t => x + 16 * nv t end.
Definition nib (x : Z) : Prop := 0 <= x < 16.

Fixpoint zip (f : Z -> Z -> Z) (a b : list Z) : list Z :=
  match a, b with x :: a', y :: b' => f x y :: zip f a' b' | _, _ => [] end.

Lemma nib_cases (P : Z -> Prop) : (forall n, (n < 16)%nat -> P (Z.of_nat n)) -> forall x, nib x -> P x.
Proof. intros H x [A B]. rewrite <- (Z2Nat.id x) by lia. apply H. lia. Qed.

Ltac nibs x H := revert x H;
  apply nib_cases; let n := fresh "n" in let L := fresh "L" in intros n L;
  do 16 (destruct n as [|n]; [try (vm_compute; first [reflexivity|split; [discriminate|reflexivity]])|]); try (exfalso; lia).

Lemma nv_nonneg l : Forall nib l -> 0 <= nv l.
Proof. induction 1 as [|x l [A B] F IH]; cbn [nv]; lia. Qed.

Lemma nib_split x : 0 <= x -> nib (x mod 16) /\ x = x mod 16 + 16 * (x / 16) /\ 0 <= x / 16.
Proof.
  intros H. pose proof (Z.mod_pos_bound x 16). pose proof (Z.div_mod x 16).
  pose proof (Z.div_pos x 16). unfold nib. lia.
Qed.

Lemma nibbles_exist k : forall x, 0 <= x < 16 ^ Z.of_nat k ->
  exists l, length l = k /\ Forall nib l /\ x = nv l.
Proof.
  induction k as [|k IH]; intros x H.
  - exists []. cbn in H. split; [reflexivity|split; [constructor|]]. cbn. lia.
  - destruct (nib_split x) as (A & B & C); [lia|].
    destruct (IH (x / 16)) as (l & L & F & E).
    + split; [assumption|]. apply Z.div_lt_upper_bound; [lia|].
      rewrite Nat2Z.inj_succ, Z.pow_succ_r in H by lia. lia.
    + exists (x mod 16 :: l). cbn [length nv]. rewrite <- E. split; [lia|]. split; [constructor; auto|lia].
Qed.

Lemma testbit_cons x t i : nib x -> 0 <= i ->
  Z.testbit (x + 16 * t) i = if i <? 4 then Z.testbit x i else Z.testbit t (i - 4).
Proof.
  intros [A B] Hi. change 16 with (2 ^ 4). rewrite (Z.mul_comm (2 ^ 4)).
  destruct (Z.ltb_spec i 4).
  - rewrite <- (Z.mod_pow2_bits_low (x + t * 2 ^ 4) 4) by lia.
    rewrite Z.mod_add, Z.mod_small by lia. reflexivity.
  - replace i with (i - 4 + 4) at 1 by lia. rewrite <- Z.div_pow2_bits by lia.
    rewrite Z.div_add, Z.div_small by lia. reflexivity.
Qed.

Lemma land15 x : nib x -> Z.land x 15 = x.
Proof. intros H. nibs x H. Qed.

Lemma land_cons x y a b : nib x -> nib y ->
  Z.land (x + 16 * a) (y + 16 * b) = Z.land x y + 16 * Z.land a b.
Proof.
  intros Hx Hy.
  assert (Hxy : nib (Z.land x y)).
  { rewrite <- (land15 y Hy), Z.land_assoc. change 15 with (Z.ones 4).
    rewrite Z.land_ones by lia. apply Z.mod_pos_bound. lia. }
  apply Z.bits_inj'. intros i Hi. rewrite Z.land_spec, !testbit_cons by auto.
  destruct (i <? 4); rewrite Z.land_spec; reflexivity.
Qed.

Lemma land_nv a : forall b, Forall nib a -> Forall nib b -> length a = length b ->
  Z.land (nv a) (nv b) = nv (zip Z.land a b).
Proof.
  induction a as [|x a IH]; intros [|y b] Fa Fb L; try discriminate; [reflexivity|].
  cbn [nv zip]. inversion Fa; inversion Fb; subst. rewrite land_cons, IH by auto. reflexivity.
Qed.
Lemma sub_nv a : forall b, length a = length b -> nv a - nv b = nv (zip Z.sub a b).
Proof.
  induction a as [|x a IH]; intros [|y b] L; try discriminate; [reflexivity|].
  cbn [nv zip]. rewrite <- IH by (injection L; auto). lia.
Qed.
Lemma add_nv a : forall b, length a = length b -> nv a + nv b = nv (zip Z.add a b).
Proof.
  induction a as [|x a IH]; intros [|y b] L; try discriminate; [reflexivity|].
  cbn [nv zip]. rewrite <- IH by (injection L; auto). lia.
Qed.
Lemma div_nv a c : 0 < c -> Forall (fun x => x mod c = 0) a -> nv a / c = nv (map (fun x => x / c) a).
Proof.
  intros Hc F. assert (E : nv a = nv (map (fun x => x / c) a) * c).
  { induction F as [|x a Hx F IH]; [reflexivity|]. cbn [nv map].
    rewrite (Z.div_mod x c) at 1 by lia. rewrite Hx, IH. ring. }
  rewrite E at 1. apply Z.div_mul. lia.
Qed.

(** bits of a nibble *)
Definition pc4 (x : Z) : Z := bits_below x 4.

Lemma bits_below_cons x t k : nib x -> bits_below (x + 16 * t) (4 + k) = pc4 x + bits_below t k.
Proof.
  intros Hx. induction k as [|k IH].
  - unfold pc4. cbn [Nat.add bits_below]. rewrite !testbit_cons by (auto; lia). cbn [Z.ltb]. 
    change (Z.of_nat 0 <? 4) with true. change (Z.of_nat 1 <? 4) with true.
    change (Z.of_nat 2 <? 4) with true. change (Z.of_nat 3 <? 4) with true. cbv iota. lia.
  - rewrite Nat.add_succ_r. cbn [bits_below]. rewrite IH, testbit_cons by (auto; lia).
    rewrite (proj2 (Z.ltb_ge (Z.of_nat (4 + k)) 4)) by lia.
    replace (Z.of_nat (4 + k) - 4) with (Z.of_nat k) by lia. lia.
Qed.

Fixpoint sum (l : list Z) : Z := match l with [] => 0 | x :: t => x + sum t end.

Lemma bits_below_nv l : Forall nib l -> bits_below (nv l) (4 * length l) = sum (map pc4 l).
Proof.
  induction 1 as [|x l Hx F IH]; [reflexivity|].
  cbn [nv length map sum]. replace (4 * S (length l))%nat with (4 + 4 * length l)%nat by lia.
  rewrite bits_below_cons, IH by auto. reflexivity.
Qed.

Definition f1 (x : Z) : Z := x - Z.land x 10 / 2.
Definition f2 (x : Z) : Z := Z.land x 3 + Z.land x 12 / 4.

Lemma f12 x : nib x -> f2 (f1 x) = pc4 x.
Proof. intros H. nibs x H. Qed.
Lemma nib_f1 x : nib x -> nib (f1 x).
Proof. intros H. nibs x H. Qed.
Lemma pc4_range x : nib x -> 0 <= pc4 x <= 4.
Proof. intros H. unfold pc4. cbn [bits_below]. repeat destruct (Z.testbit _ _); lia. Qed.

Lemma zip_repeat f a c : zip f a (repeat c (length a)) = map (fun x => f x c) a.
Proof. induction a as [|x a IH]; [reflexivity|]. cbn [length repeat zip map]. rewrite IH. reflexivity. Qed.
Lemma zip_map f (g h : Z -> Z) a : zip f (map g a) (map h a) = map (fun x => f (g x) (h x)) a.
Proof. induction a as [|x a IH]; [reflexivity|]. cbn [zip map]. rewrite IH. reflexivity. Qed.
Lemma zip_map_r f (h : Z -> Z) a : zip f a (map h a) = map (fun x => f x (h x)) a.
Proof. rewrite <- (map_id a) at 1. apply zip_map. Qed.

Lemma Forall_map_nib f a : (forall x, nib x -> nib (f x)) -> Forall nib a -> Forall nib (map f a).
Proof. intros H F. apply Forall_map. eapply Forall_impl; [|exact F]. auto. Qed.

Lemma mask_nv (a : list Z) c : Forall nib a -> nib c ->
  Z.land (nv a) (nv (repeat c (length a))) = nv (map (fun x => Z.land x c) a).
Proof.
  intros F Hc. rewrite land_nv, zip_repeat by (auto; try (rewrite repeat_length; auto); apply Forall_forall;
    intros y Hy; apply repeat_spec in Hy; subst; auto). reflexivity.
Qed.

Lemma step1 a : Forall nib a ->
  nv a - Z.land (nv a) (nv (repeat 10 (length a))) / 2 = nv (map f1 a).
Proof.
  intros F. rewrite mask_nv by (auto; unfold nib; lia). rewrite div_nv, map_map.
  - rewrite sub_nv, zip_map_r by (rewrite map_length; reflexivity). reflexivity.
  - lia.
  - apply Forall_map. eapply Forall_impl; [|exact F]. intros x Hx. cbv beta. nibs x Hx.
Qed.
Lemma step2 a : Forall nib a ->
  Z.land (nv a) (nv (repeat 3 (length a))) + Z.land (nv a) (nv (repeat 12 (length a))) / 4 = nv (map f2 a).
Proof.
  intros F. rewrite !mask_nv by (auto; unfold nib; lia). rewrite div_nv, map_map.
  - rewrite add_nv, zip_map by (rewrite !map_length; reflexivity). reflexivity.
  - lia.
  - apply Forall_map. eapply Forall_impl; [|exact F]. intros x Hx. cbv beta. nibs x Hx.
Qed.

Lemma nv_lt a : Forall nib a -> nv a < 16 ^ Z.of_nat (length a).
Proof.
  induction 1 as [|x a [A B] F IH]; [reflexivity|].
  cbn [nv length]. rewrite Nat2Z.inj_succ, Z.pow_succ_r by lia. lia.
Qed.

Lemma wrap_nv a : Forall nib a -> length a = 16%nat -> wrap64 (nv a) = nv a.
Proof.
  intros F L. unfold wrap64. apply Z.mod_small. pose proof (nv_nonneg a F). pose proof (nv_lt a F).
  rewrite L in H0. change (16 ^ Z.of_nat 16) with W64 in H0. lia.
Qed.

Lemma b0_nv : bc_b0 = nv (repeat 10 16). Proof. reflexivity. Qed.
Lemma b1_nv : bc_b1 = nv (repeat 12 16). Proof. reflexivity. Qed.
Lemma nb1_nv : not64 bc_b1 = nv (repeat 3 16). Proof. reflexivity. Qed.
Definition lows : list Z := [15;0;15;0;15;0;15;0;15;0;15;0;15;0;15;0].
Lemma nb2_nv : not64 bc_b2 = nv lows. Proof. reflexivity. Qed.
Lemma ones_val : bc_ones = 72340172838076673. Proof. reflexivity. Qed.

Lemma last_step s0 s1 s2 s3 s4 s5 s6 s7 :
  0 <= s0 <= 8 -> 0 <= s1 <= 8 -> 0 <= s2 <= 8 -> 0 <= s3 <= 8 ->
  0 <= s4 <= 8 -> 0 <= s5 <= 8 -> 0 <= s6 <= 8 -> 0 <= s7 <= 8 ->
  wrap64 ((s0 + 2^8 * (s1 + 2^8 * (s2 + 2^8 * (s3 + 2^8 * (s4 + 2^8 * (s5 + 2^8 * (s6 + 2^8 * s7))))))) * bc_ones) / 2 ^ 56
  = s0 + s1 + s2 + s3 + s4 + s5 + s6 + s7.
Proof.
  intros. rewrite ones_val. unfold wrap64, W64.
  set (low := s0 + 256 * (s0 + s1) + 65536 * (s0 + s1 + s2) + 16777216 * (s0 + s1 + s2 + s3)
     + 4294967296 * (s0 + s1 + s2 + s3 + s4) + 1099511627776 * (s0 + s1 + s2 + s3 + s4 + s5)
     + 281474976710656 * (s0 + s1 + s2 + s3 + s4 + s5 + s6)).
  set (hi := (s1 + s2 + s3 + s4 + s5 + s6 + s7) + 256 * (s2 + s3 + s4 + s5 + s6 + s7)
     + 65536 * (s3 + s4 + s5 + s6 + s7) + 16777216 * (s4 + s5 + s6 + s7) + 4294967296 * (s5 + s6 + s7)
     + 1099511627776 * (s6 + s7) + 281474976710656 * s7).
  replace (_ * 72340172838076673) with
    (low + 72057594037927936 * (s0 + s1 + s2 + s3 + s4 + s5 + s6 + s7) + hi * 18446744073709551616)
    by (unfold low, hi; change (2 ^ 8) with 256; ring).
  rewrite Z.mod_add by lia.
  assert (Hl : 0 <= low < 72057594037927936) by (unfold low; lia).
  rewrite Z.mod_small by lia. change (2 ^ 56) with 72057594037927936.
  rewrite Z.mul_comm, Z.div_add by lia. rewrite Z.div_small by lia. lia.
Qed.

Theorem bitCount_correct x : word x -> bitCount x = bits_below x 64.
Proof.
  intros Hx. destruct (nibbles_exist 16 x) as (l & L & F & ->).
  { change (16 ^ Z.of_nat 16) with (2 ^ 64). exact Hx. }
  replace (bits_below (nv l) 64) with (sum (map pc4 l)).
  2:{ rewrite <- bits_below_nv by auto. rewrite L. reflexivity. }
  unfold bitCount. cbv zeta. rewrite nb1_nv, b0_nv, b1_nv, nb2_nv.
  change (2 ^ 2) with 4. change (2 ^ 4) with 16.
  rewrite <- L. rewrite step1 by auto.
  assert (F1 : Forall nib (map f1 l)) by (apply Forall_map_nib; auto using nib_f1).
  rewrite (wrap_nv (map f1 l)) by (auto; rewrite map_length; auto).
  replace (length l) with (length (map f1 l)) by apply map_length.
  rewrite step2 by auto. rewrite map_map.
  assert (E2 : map (fun x => f2 (f1 x)) l = map pc4 l).
  { apply map_ext_in. intros y Hy. apply f12. rewrite Forall_forall in F. auto. }
  rewrite E2.
  assert (F2 : Forall nib (map pc4 l)).
  { apply Forall_map_nib; auto. intros y Hy. pose proof (pc4_range y Hy). unfold nib. lia. }
  rewrite (wrap_nv (map pc4 l)) by (auto; rewrite map_length; auto).
  assert (G : Forall (fun y => 0 <= y <= 4) (map pc4 l)).
  { apply Forall_map. eapply Forall_impl; [|exact F]. apply pc4_range. }
  revert G. generalize (map_length pc4 l). rewrite L. clear F E2 F1 F2. 
  generalize (map pc4 l). clear l L Hx. intros c Lc G.
  do 16 (destruct c as [|? c]; [discriminate Lc|]). destruct c; [|discriminate Lc].
  repeat match goal with H : Forall _ (_ :: _) |- _ => inversion H; clear H; subst end.
  set (q := [z; z0; z1; z2; z3; z4; z5; z6; z7; z8; z9; z10; z11; z12; z13; z14]).
  assert (E3 : nv q + nv q / 16 = nv [z+z0; z0+z1; z1+z2; z2+z3; z3+z4; z4+z5; z5+z6; z6+z7; z7+z8; z8+z9; z9+z10; z10+z11; z11+z12; z12+z13; z13+z14; z14]).
  { assert (D : nv q / 16 = nv [z0; z1; z2; z3; z4; z5; z6; z7; z8; z9; z10; z11; z12; z13; z14]).
    { unfold q. cbn [nv]. rewrite Z.mul_comm, Z.div_add by lia. rewrite Z.div_small by lia. lia. }
    rewrite D. unfold q. cbn [nv]. ring. }
  rewrite E3. rewrite wrap_nv; [|repeat constructor; lia|reflexivity].
  rewrite land_nv; [|repeat constructor; lia|repeat constructor; lia|reflexivity].
  unfold lows. cbn [zip]. rewrite !Z.land_0_r, !land15 by (unfold nib; lia).
  unfold q. cbn [sum].
  etransitivity; [|etransitivity; [apply (last_step (z+z0) (z1+z2) (z3+z4) (z5+z6) (z7+z8) (z9+z10) (z11+z12) (z13+z14)); lia|ring]].
  f_equal. f_equal. f_equal. cbn [nv]. change (2 ^ 8) with 256. ring.
Qed.

(** ** The tables *)
Definition first_ok (f e : Z) : Prop :=
  0 <= e /\ Z.testbit f e = true /\ forall i, 0 <= i < e -> Z.testbit f i = false.
Definition last_ok (f e : Z) : Prop := 0 < e /\ 2 ^ (e - 1) <= f < 2 ^ e.

Definition first_okb (f e : Z) : bool :=
  (0 <=? e) && Z.testbit f e && forallb (fun i => negb (Z.testbit f (Z.of_nat i))) (seq 0 (Z.to_nat e)).
Lemma first_okb_ok f e : first_okb f e = true -> first_ok f e.
Proof.
  unfold first_okb. intros H. apply andb_prop in H as [H H3]. apply andb_prop in H as [H1 H2].
  apply Z.leb_le in H1. split; [exact H1|]. split; [exact H2|].
  intros i Hi. rewrite forallb_forall in H3. specialize (H3 (Z.to_nat i)).
  rewrite Z2Nat.id in H3 by lia. apply negb_true_iff, H3, in_seq. lia.
Qed.
Definition tab_ok (ft lt : list Z) (n : nat) : bool :=
  first_okb (Z.of_nat n) (nth n ft 0) && (nth n ft 0 <? 8) &&
  ((0 <? nth n lt 0) && (nth n lt 0 <=? 8) && (2 ^ (nth n lt 0 - 1) <=? Z.of_nat n) &&
   (Z.of_nat n <? 2 ^ nth n lt 0)).
Lemma tabs_spec ft lt : forallb (tab_ok ft lt) (seq 1 255) = true -> forall x, 0 < x < 256 ->
  (first_ok x (nth (Z.to_nat x) ft 0) /\ nth (Z.to_nat x) ft 0 < 8) /\
  (last_ok x (nth (Z.to_nat x) lt 0) /\ nth (Z.to_nat x) lt 0 <= 8).
Proof.
  intros T x H. rewrite forallb_forall in T. specialize (T (Z.to_nat x)).
  assert (I : In (Z.to_nat x) (seq 1 255)) by (apply in_seq; lia). specialize (T I).
  unfold tab_ok in T. apply andb_prop in T as [T T']. apply andb_prop in T as [T1 T2].
  apply andb_prop in T' as [T' T6]. apply andb_prop in T' as [T' T5]. apply andb_prop in T' as [T3 T4].
  rewrite Z2Nat.id in T1, T5, T6 by lia.
  split; [split; [apply first_okb_ok, T1|lia]|]. unfold last_ok. lia.
Qed.
Lemma tab_all : forallb (tab_ok firstbit_tab lastbit_tab) (seq 1 255) = true.
Proof. vm_compute. reflexivity. Qed.
Lemma firstbit_tab_spec x : 0 < x < 256 ->
  first_ok x (nth (Z.to_nat x) firstbit_tab 0) /\ nth (Z.to_nat x) firstbit_tab 0 < 8.
Proof. intros H. exact (proj1 (tabs_spec _ _ tab_all x H)). Qed.
Lemma lastbit_tab_spec x : 0 < x < 256 ->
  last_ok x (nth (Z.to_nat x) lastbit_tab 0) /\ nth (Z.to_nat x) lastbit_tab 0 <= 8.
Proof. intros H. exact (proj2 (tabs_spec _ _ tab_all x H)). Qed.

Lemma land255 f : Z.land f 255 = f mod 256.
Proof. change 255 with (Z.ones 8). rewrite Z.land_ones by lia. reflexivity. Qed.

Lemma first_ok_shift f e : f mod 256 = 0 -> first_ok (f / 256) e -> first_ok f (e + 8).
Proof.
  intros M (A & B & C). split; [lia|].
  assert (T : forall i, 0 <= i -> Z.testbit f (i + 8) = Z.testbit (f / 256) i).
  { intros i Hi. change 256 with (2 ^ 8). rewrite Z.div_pow2_bits by lia. reflexivity. }
  split; [rewrite T; auto|]. intros i Hi. destruct (Z.lt_ge_cases i 8).
  - rewrite <- (Z.mod_pow2_bits_low f 8) by lia. change (2 ^ 8) with 256. rewrite M. apply Z.bits_0.
  - replace i with (i - 8 + 8) by lia. rewrite T by lia. apply C. lia.
Qed.
Lemma first_ok_low f e : e < 8 -> first_ok (f mod 256) e -> first_ok f e.
Proof.
  intros H (A & B & C). split; [exact A|].
  assert (T : forall i, i < 8 -> Z.testbit f i = Z.testbit (f mod 256) i).
  { intros i Hi. change 256 with (2 ^ 8). rewrite Z.mod_pow2_bits_low by lia. reflexivity. }
  split; [rewrite T; auto|]. intros i Hi. rewrite T by lia. apply C. lia.
Qed.

Lemma firstBit_loop_spec k : forall f fb, 0 < f < 256 ^ Z.of_nat k ->
  exists e, firstBit_loop k f fb = fb + e /\ first_ok f e /\ e < 8 * Z.of_nat k.
Proof.
  induction k as [|k IH]; intros f fb H; [cbn in H; lia|].
  cbn [firstBit_loop]. rewrite land255. change (2 ^ 8) with 256.
  pose proof (Z.mod_pos_bound f 256). pose proof (Z.div_mod f 256).
  destruct (Z.eqb_spec (f mod 256) 0) as [E|E].
  - destruct (IH (f / 256) (fb + 8)) as (e & E1 & E2 & E3).
    { rewrite Nat2Z.inj_succ, Z.pow_succ_r in H by lia. split; [lia|]. apply Z.div_lt_upper_bound; lia. }
    exists (e + 8). split; [lia|]. split; [apply first_ok_shift; auto|lia].
  - destruct (firstbit_tab_spec (f mod 256)) as [A B]; [lia|].
    eexists. split; [reflexivity|]. split; [apply first_ok_low; auto|lia].
Qed.

Theorem firstBit_correct f : word f ->
  (f = 0 /\ firstBit f = 64) \/
  (f <> 0 /\ 0 <= firstBit f < 64 /\ Z.testbit f (firstBit f) = true /\
   forall i, 0 <= i < firstBit f -> Z.testbit f i = false).
Proof.
  intros H. unfold word in H. unfold firstBit. destruct (Z.eqb_spec f 0) as [E|E]; [left; auto|right].
  destruct (firstBit_loop_spec 8 f 0) as (e & E1 & (E2 & E3 & E4) & E5).
  { change (256 ^ Z.of_nat 8) with (2 ^ 64). lia. }
  rewrite E1. cbn [Z.add]. do 3 (split; [auto; lia|]). exact E4.
Qed.

Lemma not255_testbit i : 0 <= i -> Z.testbit (not64 255) i = (8 <=? i) && (i <? 64).
Proof.
  intros Hi. change (not64 255) with (Z.shiftl (Z.ones 56) 8). rewrite Z.shiftl_spec by lia.
  destruct (Z.leb_spec 8 i); cbn [andb].
  - destruct (Z.ltb_spec i 64); [apply Z.ones_spec_low|apply Z.ones_spec_high]; lia.
  - apply Z.testbit_neg_r. lia.
Qed.

Lemma high_test f : word f -> negb (Z.land f (not64 255) =? 0) = (256 <=? f).
Proof.
  intros H. unfold word in H.
  assert (E : Z.land f (not64 255) = Z.shiftl (f / 256) 8).
  { apply Z.bits_inj'. intros i Hi. rewrite Z.land_spec, not255_testbit, Z.shiftl_spec by lia.
    destruct (Z.leb_spec 8 i); cbn [andb].
    - change 256 with (2 ^ 8). rewrite Z.div_pow2_bits by lia. replace (i - 8 + 8) with i by lia.
      destruct (Z.ltb_spec i 64); [apply andb_true_r|]. rewrite andb_false_r. symmetry.
      rewrite <- (Z.mod_small f (2 ^ 64)) by lia. apply Z.mod_pow2_bits_high. lia.
    - rewrite andb_false_r. symmetry. apply Z.testbit_neg_r. lia. }
  rewrite E, Z.shiftl_mul_pow2 by lia. change (2 ^ 8) with 256.
  pose proof (Z.div_mod f 256). pose proof (Z.mod_pos_bound f 256).
  destruct (Z.eqb_spec (f / 256 * 256) 0); destruct (Z.leb_spec 256 f); auto; lia.
Qed.

Lemma last_ok_shift f e : last_ok (f / 256) e -> last_ok f (e + 8).
Proof.
  intros (A & B & C). split; [lia|]. replace (e + 8 - 1) with (e - 1 + 8) by lia.
  rewrite !Z.pow_add_r by lia. change (2 ^ 8) with 256.
  pose proof (Z.div_mod f 256). pose proof (Z.mod_pos_bound f 256). nia.
Qed.
Lemma lastBit_loop_spec k : forall f lb, word f -> 0 < f < 256 ^ Z.of_nat k ->
  exists e, lastBit_loop k f lb = lb + e /\ last_ok f e /\ e <= 8 * Z.of_nat k.
Proof.
  induction k as [|k IH]; intros f lb Wf H; [cbn in H; lia|].
  cbn [lastBit_loop]. rewrite high_test by auto. change (2 ^ 8) with 256.
  pose proof (Z.mod_pos_bound f 256). pose proof (Z.div_mod f 256).
  destruct (Z.leb_spec 256 f) as [E|E].
  - destruct (IH (f / 256) (lb + 8)) as (e & E1 & E2 & E3).
    { unfold word in *. lia. }
    { rewrite Nat2Z.inj_succ, Z.pow_succ_r in H by lia. split; [lia|]. apply Z.div_lt_upper_bound; lia. }
    exists (e + 8). split; [lia|]. split; [apply last_ok_shift; auto|lia].
  - destruct (lastbit_tab_spec f) as [A B]; [lia|].
    eexists. split; [reflexivity|]. split; [auto|lia].
Qed.

Theorem lastBit_correct f : word f ->
  (f = 0 /\ lastBit f = 0) \/ (0 < lastBit f <= 64 /\ 2 ^ (lastBit f - 1) <= f < 2 ^ lastBit f).
Proof.
  intros H. unfold lastBit. destruct (Z.eqb_spec f 0) as [E|E]; [left; auto|right].
  destruct (lastBit_loop_spec 8 f 0) as (e & E1 & (E2 & E3) & E5); [auto|..].
  { change (256 ^ Z.of_nat 8) with (2 ^ 64). unfold word in H. lia. }
  rewrite E1. cbn [Z.add]. lia.
Qed.

Lemma lastBit_log2 f : word f -> 0 < f -> lastBit f = Z.log2 f + 1.
Proof.
  intros H P. destruct (lastBit_correct f H) as [[-> _]|[A B]]; [lia|].
  assert (E : Z.log2 f = lastBit f - 1); [|lia].
  apply Z.log2_unique; [lia|]. replace (Z.succ (lastBit f - 1)) with (lastBit f) by lia. exact B.
Qed.
