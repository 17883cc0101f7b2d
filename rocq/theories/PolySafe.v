(** Proofs about [Safe_Poly]. *)

From Coq Require Import List Arith ZArith Lia Bool.
From Verif Require Import VecModel VecProofs PolyModel PolySpec PolyProofs PolyDiv.
Import ListNotations.
Open Scope Z_scope.
Open Scope vec_scope.

Lemma safe_add_spec w a b : safe_add w a b = if a + b <? 2 ^ w then Some (a + b) else None.
Proof. unfold safe_add, cmax. destruct (Z.ltb_spec (2 ^ w - 1 - a) b), (Z.ltb_spec (a + b) (2 ^ w)); try lia; reflexivity. Qed.
Lemma safe_multiply_spec w a b : 0 <= a -> 0 <= b < 2 ^ w ->
  safe_multiply w a b = if a * b <? 2 ^ w then Some (a * b) else None.
Proof.
  intros Ha Hb. unfold safe_multiply, cmax. destruct (Z.eqb_spec a 0) as [->|H].
  - destruct (Z.ltb_spec (0 * b) (2 ^ w)); [f_equal; lia|lia].
  - destruct (Z.ltb_spec ((2 ^ w - 1) / a) b) as [L|L].
    + destruct (Z.ltb_spec (a * b) (2 ^ w)) as [M|M]; [|reflexivity]. exfalso.
      assert (b <= (2 ^ w - 1) / a) by (apply Z.div_le_lower_bound; lia). lia.
    + destruct (Z.ltb_spec (a * b) (2 ^ w)) as [M|M]; [reflexivity|]. exfalso.
      pose proof (Z.mul_div_le (2 ^ w - 1) a ltac:(lia)). nia.
Qed.

Lemma alias_read q p r n : (n < length (alias q p))%nat -> (n < length r)%nat -> cf r n = cf p n ->
  get (alias q r) n = Some (cf (alias q p) n).
Proof. intros H L C. destruct q as [q|]; cbn [alias] in *; [apply cf_get; exact H|]. rewrite cf_get by exact L. congruence. Qed.

Section Loop.
Variables (w c : Z) (q : option poly) (d : nat) (p0 : poly).
Let q0 := alias q p0.
Let exact i := cf p0 i + c * shift d (cf q0) i.
(** the state before the entry n-1 of the argument is treated *)
Definition partway (n : nat) (f : Z -> Z -> Z) (r : poly) : Prop :=
  forall i, cf r i = if (d + n <=? i)%nat then f (cf p0 i) (c * shift d (cf q0) i) else cf p0 i.

Lemma partway_read n f r : (S n <= length q0)%nat -> (d + length q0 <= length r)%nat -> partway (S n) f r ->
  get (alias q r) n = Some (cf q0 n) /\ get r (d + n) = Some (cf p0 (d + n)).
Proof.
  intros Hn Hr P. split.
  - apply alias_read; [exact Hn|lia|]. rewrite P. destruct (Nat.leb_spec (d + S n) n); [lia|reflexivity].
  - rewrite cf_get by lia. rewrite P. destruct (Nat.leb_spec (d + S n) (d + n)); [lia|reflexivity].
Qed.
Lemma partway_step n f r r' x : partway (S n) f r -> x = f (cf p0 (d + n)) (c * cf q0 n) ->
  (forall i, cf r' i = if (i =? d + n)%nat then x else cf r i) -> partway n f r'.
Proof.
  intros P -> H i. rewrite H, P. destruct (Nat.eqb_spec i (d + n)) as [->|D].
  - rewrite Nat.leb_refl. unfold shift. destruct (Nat.ltb_spec (d + n) d); [lia|]. replace (d + n - d)%nat with n by lia. reflexivity.
  - destruct (Nat.leb_spec (d + S n) i), (Nat.leb_spec (d + n) i); try lia; reflexivity.
Qed.
Lemma partway_start f r : (forall x, f x 0 = x) -> (forall i, cf r i = cf p0 i) -> partway (length q0) f r.
Proof.
  intros F H i. rewrite H. destruct (Nat.leb_spec (d + length q0) i); [|reflexivity]. unfold shift.
  destruct (Nat.ltb_spec i d); [lia|]. rewrite (cf_ge q0) by lia. rewrite Z.mul_0_r, F. reflexivity.
Qed.

Variable g : Z -> option Z.
Hypothesis Hg : forall i, g (cf q0 i) = if c * cf q0 i <? 2 ^ w then Some (c * cf q0 i) else None.
Definition add_body (j : nat) (p : poly) : outcome poly :=
  match get (alias q p) j, get p (d + j)%nat with
  | Some a, Some b =>
      match g a with
      | None => Threw p
      | Some a =>
          match safe_add w b a with
          | None => Threw p
          | Some s => match put p (d + j)%nat s with Some p => Done p | None => Undefined end
          end
      end
  | _, _ => Undefined
  end.
Lemma add_loop n r : fits w p0 -> (n <= length q0)%nat -> (d + length q0 <= length r)%nat -> partway n Z.add r ->
  match down n add_body r with
  | Done s => length s = length r /\ (forall i, cf s i = exact i) /\ (forall i, (d <= i < d + n)%nat -> exact i < 2 ^ w)
  | Threw _ => exists i, 2 ^ w <= exact i
  | Undefined => False
  end.
Proof.
  intros Fp. revert r. induction n as [|n IH]; intros r Hn Hr P.
  - cbn [down]. split; [reflexivity|]. split; [|intros; lia]. intros i. rewrite P. unfold exact, shift.
    destruct (Nat.leb_spec (d + 0) i), (Nat.ltb_spec i d); try lia; reflexivity.
  - cbn [down]. unfold add_body at 1. destruct (partway_read n _ r Hn Hr P) as [E1 E2]. rewrite E1, E2, Hg.
    assert (En : exact (d + n) = cf p0 (d + n) + c * cf q0 n).
    { unfold exact, shift. destruct (Nat.ltb_spec (d + n) d); [lia|]. replace (d + n - d)%nat with n by lia. reflexivity. }
    destruct (Z.ltb_spec (c * cf q0 n) (2 ^ w)) as [L|L].
    + rewrite safe_add_spec. destruct (Z.ltb_spec (cf p0 (d + n) + c * cf q0 n) (2 ^ w)) as [M|M].
      * destruct (put_cf r (d + n) (cf p0 (d + n) + c * cf q0 n)) as (r' & E & L' & C'); [lia|]. rewrite E.
        specialize (IH r' ltac:(lia) ltac:(lia) (partway_step n _ r r' _ P eq_refl C')).
        destruct (down n add_body r'); [|exact IH|exact IH]. destruct IH as (A & B & D). split; [lia|]. split; [exact B|].
        intros i Hi. destruct (Nat.eq_dec i (d + n)) as [->|]; [lia|apply D; lia].
      * exists (d + n)%nat. lia.
    + exists (d + n)%nat. specialize (Fp (d + n)%nat). lia.
Qed.
End Loop.

Lemma grow_enough p n : (n <= length (grow p n))%nat.
Proof. rewrite grow_length. lia. Qed.

Lemma add_final w c q d p g : fits w p -> fits w (alias q p) -> normal p -> normal (alias q p) -> 0 < c -> (0 < length (alias q p))%nat ->
  (forall i, g (cf (alias q p) i) = if c * cf (alias q p) i <? 2 ^ w then Some (c * cf (alias q p) i) else None) ->
  match down (length (alias q p)) (add_body w q d g) (grow p (length (alias q p) + d)) with
  | Done r => normal r /\ (forall i, cf r i = cf p i + c * shift d (cf (alias q p)) i) /\
              (forall i, cf p i + c * shift d (cf (alias q p)) i < 2 ^ w)
  | Threw _ => exists i, 2 ^ w <= cf p i + c * shift d (cf (alias q p)) i
  | Undefined => False
  end.
Proof.
  intros Fp Fq Np Nq Hc Zq Hg. set (q0 := alias q p) in *.
  pose proof (add_loop w c q d p g Hg (length q0) (grow p (length q0 + d)) Fp (le_n _)) as A.
  fold q0 in A. specialize (A ltac:(pose proof (grow_enough p (length q0 + d)); lia)).
  specialize (A (partway_start c q d p Z.add _ Z.add_0_r (grow_cf p _))).
  destruct (down _ _ _) as [r|r|]; [|exact A|exact A]. destruct A as (L & C & B). split; [|split; [exact C|]].
  - apply normal_intro. intros H. rewrite C. rewrite grow_length in L.
    assert (P : forall i, 0 <= cf p i) by (intros; apply Fp). assert (Q : forall i, 0 <= shift d (cf q0) i).
    { intros i. unfold shift. destruct (i <? d)%nat; [lia|apply Fq]. }
    specialize (P (length r - 1)%nat) as P1. specialize (Q (length r - 1)%nat) as Q1.
    destruct (Nat.le_gt_cases (length q0 + d) (length p)) as [G|G].
    + assert (cf p (length r - 1) <> 0) by (replace (length r) with (length p) by lia; apply normal_lead; [exact Np|lia]).
      nia.
    + assert (shift d (cf q0) (length r - 1) <> 0).
      { unfold shift. destruct (Nat.ltb_spec (length r - 1) d); [lia|].
        replace (length r - 1 - d)%nat with (length q0 - 1)%nat by lia. apply normal_lead; [exact Nq|lia]. }
      nia.
  - intros i. unfold shift. destruct (Nat.ltb_spec i d); [destruct (Fp i); lia|].
    destruct (Nat.lt_ge_cases i (d + length q0)).
    + specialize (B i ltac:(lia)). unfold shift in B. destruct (Nat.ltb_spec i d); [lia|exact B].
    + rewrite (cf_ge q0) by lia. destruct (Fp i). lia.
Qed.

Lemma safeAdd_mult_correct w p q d c : fits w p -> fits w (alias q p) -> normal p -> normal (alias q p) -> 0 <= c < 2 ^ w ->
  match safeAdd_mult w p q d c with
  | Done r => normal r /\ (forall i, cf r i = cf p i + c * shift d (cf (alias q p)) i) /\
              (forall i, cf p i + c * shift d (cf (alias q p)) i < 2 ^ w)
  | Threw _ => exists i, 2 ^ w <= cf p i + c * shift d (cf (alias q p)) i
  | Undefined => False
  end.
Proof.
  intros Fp Fq Np Nq Hc. unfold safeAdd_mult. destruct (is_zero (alias q p)) eqn:Z; [|destruct (Z.eqb_spec c 0) as [->|Hc0]]; cbn [orb].
  - apply is_zero_true in Z. split; [exact Np|].
    assert (A : forall i, cf p i = cf p i + c * shift d (cf (alias q p)) i).
    { intros i. rewrite Z. unfold shift. rewrite cf_nil. destruct (i <? d)%nat; lia. }
    split; [exact A|]. intros i. rewrite <- A. apply Fp.
  - split; [exact Np|]. split; [intros; lia|]. intros i. destruct (Fp i). lia.
  - apply is_zero_false in Z. fold (grow p (length (alias q p) + d)).
    apply (add_final w c q d p (fun a => safe_multiply w a c)); auto; [lia|].
    intros i. rewrite (Z.mul_comm c). apply safe_multiply_spec; [apply Fq|exact Hc].
Qed.
Lemma safeAdd_correct w p q d : fits w p -> fits w (alias q p) -> normal p -> normal (alias q p) ->
  match safeAdd w p q d with
  | Done r => normal r /\ (forall i, cf r i = cf p i + shift d (cf (alias q p)) i) /\
              (forall i, cf p i + shift d (cf (alias q p)) i < 2 ^ w)
  | Threw _ => exists i, 2 ^ w <= cf p i + shift d (cf (alias q p)) i
  | Undefined => False
  end.
Proof.
  intros Fp Fq Np Nq. unfold safeAdd. destruct (is_zero (alias q p)) eqn:Z.
  - apply is_zero_true in Z. split; [exact Np|].
    assert (A : forall i, cf p i = cf p i + shift d (cf (alias q p)) i).
    { intros i. rewrite Z. unfold shift. rewrite cf_nil. destruct (i <? d)%nat; lia. }
    split; [exact A|]. intros i. rewrite <- A. apply Fp.
  - apply is_zero_false in Z. fold (grow p (length (alias q p) + d)).
    pose proof (add_final w 1 q d p (fun a => Some a) Fp Fq Np Nq ltac:(lia) Z) as A.
    assert (G : forall i, Some (cf (alias q p) i) = (if 1 * cf (alias q p) i <? 2 ^ w then Some (1 * cf (alias q p) i) else None)).
    { intros i. rewrite Z.mul_1_l. destruct (Z.ltb_spec (cf (alias q p) i) (2 ^ w)); [reflexivity|]. destruct (Fq i). lia. }
    specialize (A G). clear G. unfold add_body in A. cbv beta iota in A.
    destruct (down _ _ _) as [r|r|]; [|destruct A as [i A]; exists i; lia|exact A].
    destruct A as (N & C & B). split; [exact N|]. split; intros i; [specialize (C i)|specialize (B i)]; lia.
Qed.

Section SubLoop.
Variables (w c : Z) (q : option poly) (d : nat) (p0 : poly).
Let q0 := alias q p0.
Variable g : Z -> option Z.
Hypothesis Hg : forall i, c * cf q0 i < 2 ^ w -> g (cf q0 i) = Some (c * cf q0 i).
Definition sub_body (j : nat) (p : poly) : outcome poly :=
  match get (alias q p) j, get p (d + j)%nat with
  | Some a, Some b =>
      match g a with
      | None => Threw p
      | Some a => match put p (d + j)%nat (safe_subtract w b a) with Some p => Done p | None => Undefined end
      end
  | _, _ => Undefined
  end.
Lemma sub_loop n r : fits w p0 -> fits w q0 -> 0 <= c -> (n <= length q0)%nat -> (d + length q0 <= length r)%nat ->
  (forall i, c * shift d (cf q0) i <= cf p0 i) -> partway c q d p0 n Z.sub r ->
  exists s, down n sub_body r = Done s /\ length s = length r /\ forall i, cf s i = cf p0 i - c * shift d (cf q0) i.
Proof.
  intros Fp Fq Hc. revert r. induction n as [|n IH]; intros r Hn Hr Hle P.
  - exists r. split; [reflexivity|]. split; [reflexivity|]. intros i. rewrite P. fold q0. unfold shift.
    destruct (Nat.leb_spec (d + 0) i), (Nat.ltb_spec i d); try lia; reflexivity.
  - cbn [down]. unfold sub_body at 1. destruct (partway_read c q d p0 n _ r Hn Hr P) as [E1 E2]. fold q0 in E1. rewrite E1, E2.
    assert (En : c * cf q0 n <= cf p0 (d + n)).
    { specialize (Hle (d + n)%nat). unfold shift in Hle. destruct (Nat.ltb_spec (d + n) d); [lia|].
      replace (d + n - d)%nat with n in Hle by lia. exact Hle. }
    destruct (Fp (d + n)%nat) as [F1 F2]. destruct (Fq n) as [F3 F4]. rewrite Hg by lia.
    unfold safe_subtract. rewrite Z.mod_small by nia.
    destruct (put_cf r (d + n) (cf p0 (d + n) - c * cf q0 n)) as (r' & E & L' & C'); [lia|]. rewrite E.
    destruct (IH r' ltac:(lia) ltac:(lia) Hle (partway_step c q d p0 n _ r r' _ P eq_refl C')) as (s & Es & Ls & Cs).
    exists s. split; [exact Es|]. split; [lia|exact Cs].
Qed.
Lemma sub_final : fits w p0 -> fits w q0 -> normal q0 -> 0 < c -> (0 < length q0)%nat ->
  (forall i, c * shift d (cf q0) i <= cf p0 i) ->
  exists r, match down (length q0) sub_body p0 with Done p => Done (adjustSize p) | r => r end = Done r /\ normal r /\
    forall i, cf r i = cf p0 i - c * shift d (cf q0) i.
Proof.
  intros Fp Fq Nq Hc Zq Hle.
  assert (L : (d + length q0 <= length p0)%nat).
  { pose proof (normal_lead q0 Nq Zq) as H. specialize (Hle (d + (length q0 - 1))%nat). unfold shift in Hle.
    destruct (Nat.ltb_spec (d + (length q0 - 1)) d); [lia|]. replace (d + (length q0 - 1) - d)%nat with (length q0 - 1)%nat in Hle by lia.
    destruct (Fq (length q0 - 1)%nat). assert (cf p0 (d + (length q0 - 1)) <> 0) by nia. pose proof (cf_lt _ _ H3). lia. }
  destruct (sub_loop (length q0) p0 Fp Fq ltac:(lia) (le_n _) L Hle) as (s & Es & Ls & Cs).
  { apply partway_start; [intros; lia|reflexivity]. }
  rewrite Es. exists (adjustSize s). split; [reflexivity|]. split; [apply adjust_normal|]. intros i. rewrite adjust_cf. apply Cs.
Qed.
End SubLoop.

Lemma safeSubtract_mult_correct w p q d c : fits w p -> fits w (alias q p) -> normal p -> normal (alias q p) -> 0 <= c < 2 ^ w ->
  (forall i, c * shift d (cf (alias q p)) i <= cf p i) ->
  exists r, safeSubtract_mult w p q d c = Done r /\ normal r /\ forall i, cf r i = cf p i - c * shift d (cf (alias q p)) i.
Proof.
  intros Fp Fq Np Nq Hc Hle. unfold safeSubtract_mult.
  destruct (is_zero (alias q p)) eqn:Z; [|destruct (Z.eqb_spec c 0) as [->|Hc0]]; cbn [orb].
  - apply is_zero_true in Z. exists p. split; [reflexivity|]. split; [exact Np|].
    intros i. rewrite Z. unfold shift. rewrite cf_nil. destruct (i <? d)%nat; lia.
  - exists p. split; [reflexivity|]. split; [exact Np|]. intros; lia.
  - apply is_zero_false in Z.
    apply (sub_final w c q d p (fun a => safe_multiply w a c)); auto; [|lia].
    intros i Hi. rewrite safe_multiply_spec by (try exact Hc; apply Fq). rewrite (Z.mul_comm (cf _ i)).
    destruct (Z.ltb_spec (c * cf (alias q p) i) (2 ^ w)); [reflexivity|lia].
Qed.
Lemma safeSubtract_correct w p q d : fits w p -> fits w (alias q p) -> normal p -> normal (alias q p) ->
  (forall i, shift d (cf (alias q p)) i <= cf p i) ->
  exists r, safeSubtract w p q d = Done r /\ normal r /\ forall i, cf r i = cf p i - shift d (cf (alias q p)) i.
Proof.
  intros Fp Fq Np Nq Hle. unfold safeSubtract. destruct (is_zero (alias q p)) eqn:Z.
  - apply is_zero_true in Z. exists p. split; [reflexivity|]. split; [exact Np|].
    intros i. rewrite Z. unfold shift. rewrite cf_nil. destruct (i <? d)%nat; lia.
  - apply is_zero_false in Z.
    destruct (sub_final w 1 q d p (fun a => Some a)) as (r & E & N & C); auto; try lia.
    + intros i _. f_equal. lia.
    + intros i. specialize (Hle i). lia.
    + exists r. split; [exact E|]. split; [exact N|]. intros i. rewrite C. lia.
Qed.

Lemma safeDivide_correct p c : normal p -> 0 < c -> (forall i, (c | cf p i)) ->
  exists r, safeDivide p c = Some r /\ normal r /\ forall i, cf p i = c * cf r i.
Proof.
  intros Np Hc H.
  assert (A : exists r, safeDivide p c = Some r /\ length r = length p /\ forall i, cf p i = c * cf r i).
  { clear Np. induction p as [|x p IH]; [exists []; split; [reflexivity|]; split; [reflexivity|]; intros i; rewrite !cf_nil; lia|].
    cbn [safeDivide]. unfold safe_divide. destruct (Z.eqb_spec c 0); [lia|].
    destruct IH as (r & E & L & C); [intros i; apply (H (S i))|]. rewrite E. exists (x / c :: r). split; [reflexivity|].
    split; [cbn [length]; congruence|]. intros [|i]; [|apply C]. change (x = c * (x / c)).
    pose proof (H 0%nat) as D. change (c | x) in D. apply Z.divide_div_mul_exact with (c := c) in D; [|lia].
    rewrite Z.mul_comm, Z.div_mul in D by lia. lia. }
  destruct A as (r & E & L & C). exists r. split; [exact E|]. split; [|exact C]. apply normal_intro. intros Hr. rewrite L in *.
  pose proof (normal_lead p Np Hr) as D. rewrite C in D. nia.
Qed.

(** The quotient by 1+q of a polynomial, with a possible extra term in the next degree *)
Lemma safe_quotient_correct w p s : fits w p -> normal p -> normal s -> fits w s -> (length s <= length p)%nat ->
  (forall i, (i < length p)%nat -> cf p i = times_1_plus 1 1 (cf s) i) ->
  safe_quotient_by_1_plus_q w p = Some s.
Proof.
  intros Fp Np Ns Fs Ls H. unfold safe_quotient_by_1_plus_q. destruct (is_zero p) eqn:Z.
  - apply is_zero_true in Z. subst p. destruct s; [reflexivity|cbn in Ls; lia].
  - apply is_zero_false in Z.
    match goal with |- match for_up ?n 1 ?b p with _ => _ end = _ =>
      destruct (for_up_rule (fun i a => length a = length p /\
        forall j, cf a j = if (j <? i)%nat then cf s j else cf p j) n 1 b p) as (a & E & La & Ca) end.
    + split; [reflexivity|]. intros j. destruct (Nat.ltb_spec j 1); [|reflexivity]. rewrite H by lia.
      unfold times_1_plus, shift. destruct (Nat.ltb_spec j 1); lia.
    + intros i a Hi (La & Ca). rewrite (cf_get a i), (cf_get a (i - 1)) by lia.
      rewrite !Ca. destruct (Nat.ltb_spec i i); [lia|]. destruct (Nat.ltb_spec (i - 1) i); [|lia].
      assert (Es : safe_subtract w (cf p i) (cf s (i - 1)) = cf s i).
      { unfold safe_subtract. rewrite H by lia. unfold times_1_plus, shift. destruct (Nat.ltb_spec i 1); [lia|].
        replace (cf s i + 1 * cf s (i - 1) - cf s (i - 1)) with (cf s i) by lia. apply Z.mod_small. apply Fs. }
      rewrite Es. destruct (put_cf a i (cf s i)) as (a' & E & L' & C'); [lia|]. exists a'. split; [exact E|]. split; [lia|].
      intros j. rewrite C', Ca. destruct (Nat.eqb_spec j i) as [->|D].
      * destruct (Nat.ltb_spec i (S i)); [reflexivity|lia].
      * destruct (Nat.ltb_spec j (S i)), (Nat.ltb_spec j i); try lia; reflexivity.
    + rewrite E. rewrite cf_get by lia.
      assert (Cs : forall j, cf a j = cf s j).
      { intros j. rewrite Ca. destruct (Nat.ltb_spec j (1 + (length p - 1))); [reflexivity|]. rewrite !cf_ge by lia. reflexivity. }
      f_equal. destruct (Z.eqb_spec (cf a (length a - 1)) 0) as [C0|C0].
      * apply normal_ext; [apply adjust_normal|exact Ns|]. intros i. rewrite adjust_cf. apply Cs.
      * apply normal_ext; [|exact Ns|exact Cs]. right. exact C0.
Qed.
