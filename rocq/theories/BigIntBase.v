(** Basic lemmas: values of digit lists, normal forms, carry/borrow/shrink. *)

From Coq Require Import ZArith List Bool Lia.
From Verif Require Import BigIntModel BigIntSpec.
Import ListNotations.
Open Scope Z_scope.

Ltac Zify.zify_post_hook ::= Z.div_mod_to_equations.

Definition Bp (n : nat) : Z := B ^ Z.of_nat n.
Arguments Bp : simpl never.

Lemma B_val : B = 4294967296. Proof. reflexivity. Qed.
Lemma neg_val : neg_flag = 2147483648. Proof. reflexivity. Qed.
Lemma pow32 : 2 ^ 32 = B. Proof. reflexivity. Qed.
Lemma pow31 : 2 ^ 31 = neg_flag. Proof. reflexivity. Qed.

Lemma pow32v : 2 ^ 32 = 4294967296. Proof. reflexivity. Qed.
Lemma pow31v : 2 ^ 31 = 2147483648. Proof. reflexivity. Qed.

Ltac ub := unfold digit, w32, cpl, s32, b2z in *;
  rewrite ?pow32v, ?pow31v, ?B_val, ?neg_val in *.

Lemma Bp_0 : Bp 0 = 1. Proof. reflexivity. Qed.
Lemma Bp_S n : Bp (S n) = B * Bp n.
Proof. unfold Bp. rewrite Nat2Z.inj_succ, Z.pow_succ_r by lia. reflexivity. Qed.
Lemma Bp_pos n : 0 < Bp n.
Proof. unfold Bp. apply Z.pow_pos_nonneg; [reflexivity | lia]. Qed.
Lemma Bp_add n m : Bp (n + m) = Bp n * Bp m.
Proof. unfold Bp. rewrite Nat2Z.inj_add, Z.pow_add_r; lia. Qed.
Lemma Bp_le n m : (n <= m)%nat -> Bp n <= Bp m.
Proof. intros. unfold Bp. apply Z.pow_le_mono_r; [reflexivity | lia]. Qed.
Lemma Bp_lt_inv n m : Bp n < Bp m -> (n < m)%nat.
Proof.
  intros. destruct (le_lt_dec m n); [|assumption].
  pose proof (Bp_le _ _ l). lia.
Qed.
Lemma Bp_1 : Bp 1 = B. Proof. reflexivity. Qed.

Lemma uval_cons x t : uval (x :: t) = x + B * uval t.
Proof. reflexivity. Qed.

Lemma uval_app a b : uval (a ++ b) = uval a + Bp (length a) * uval b.
Proof.
  induction a as [|x a IH]; cbn [app length].
  - rewrite Bp_0. cbn [uval]. lia.
  - rewrite !uval_cons, IH, Bp_S. ring.
Qed.

Lemma uval_bound d : Forall digit d -> 0 <= uval d < Bp (length d).
Proof.
  induction 1 as [|x t Hx Ht IH]; cbn [length].
  - rewrite Bp_0. cbn. lia.
  - rewrite uval_cons, Bp_S. ub. lia.
Qed.

Lemma last_app_ne {A} (a b : list A) z : b <> [] -> last (a ++ b) z = last b z.
Proof.
  intros. induction a as [|x a IH]; [reflexivity|].
  cbn [app]. destruct (a ++ b) eqn:E.
  - apply app_eq_nil in E. tauto.
  - cbn [last]. rewrite <- IH. reflexivity.
Qed.

Lemma last_snoc {A} (a : list A) x z : last (a ++ [x]) z = x.
Proof. rewrite last_app_ne by discriminate. reflexivity. Qed.

Lemma sval_app a b : b <> [] ->
  sval (a ++ b) = uval a + Bp (length a) * sval b.
Proof.
  intros. unfold sval. rewrite uval_app, last_app_ne, app_length by assumption.
  rewrite pow32. fold (Bp (length a + length b)). fold (Bp (length b)).
  rewrite Bp_add. destruct (_ <=? _); ring.
Qed.

Lemma sval_1 x : sval [x] = s32 x.
Proof.
  unfold sval, s32. cbn [uval last length]. rewrite pow31.
  destruct (Z.leb_spec neg_flag x), (Z.ltb_spec x neg_flag); try lia;
  change (2^32) with B; change (B ^ Z.of_nat 1) with B; lia.
Qed.

Lemma sval_cons x t : t <> [] -> sval (x :: t) = x + B * sval t.
Proof.
  intros. change (x :: t) with ([x] ++ t). rewrite sval_app by assumption.
  cbn [length uval]. rewrite Bp_1. lia.
Qed.

Lemma sval_cons2 x y t : sval (x :: y :: t) = x + B * sval (y :: t).
Proof. apply sval_cons. discriminate. Qed.

Lemma sval_snoc a x : sval (a ++ [x]) = uval a + Bp (length a) * s32 x.
Proof. rewrite sval_app, sval_1 by discriminate. reflexivity. Qed.

Lemma wf_snoc_inv d : wf d -> exists a x, d = a ++ [x] /\ Forall digit a /\ digit x.
Proof.
  intros [H F]. destruct (exists_last H) as (a & x & ->).
  exists a, x. apply Forall_app in F as [F1 F2]. inversion F2; auto.
Qed.

Lemma wf_snoc a x : Forall digit a -> digit x -> wf (a ++ [x]).
Proof.
  intros. split.
  - destruct a; discriminate.
  - apply Forall_app; auto.
Qed.

Lemma wf_app a b : Forall digit a -> wf b -> wf (a ++ b).
Proof.
  intros H [H1 H2]. split.
  - destruct a; [assumption | discriminate].
  - apply Forall_app; auto.
Qed.

Lemma wf_cons x t : digit x -> wf t -> wf (x :: t).
Proof. intros. apply (wf_app [x] t); auto. Qed.

Lemma wf_1 x : digit x -> wf [x].
Proof. intros; split; [discriminate | auto]. Qed.

Lemma wf_cons_inv x y t : wf (x :: y :: t) -> digit x /\ wf (y :: t).
Proof.
  intros [_ F]. inversion F; subst. split; [assumption|]. split; [discriminate|assumption].
Qed.

(** Signed range of n digits. *)
Definition rng (n : nat) (v : Z) : Prop := - Bp n <= 2 * v < Bp n.

Lemma sval_rng d : wf d -> rng (length d) (sval d).
Proof.
  intros H. destruct (wf_snoc_inv _ H) as (a & x & -> & Fa & Hx).
  unfold rng. rewrite sval_snoc, app_length. cbn [length].
  rewrite Bp_add, Bp_1. pose proof (uval_bound a Fa). pose proof (Bp_pos (length a)).
  ub. destruct (Z.ltb_spec x 2147483648); nia.
Qed.

Lemma rng_mono n m v : (n <= m)%nat -> rng n v -> rng m v.
Proof. unfold rng. intros H. pose proof (Bp_le _ _ H). lia. Qed.

(** For wf lists: the value lies in the range of one digit less iff the
    top digit is redundant. *)
Definition redundant (y x : Z) : Prop :=
  (x = 0 /\ y < neg_flag) \/ (x = B - 1 /\ neg_flag <= y).

Lemma top2_value a y x : redundant y x -> digit y -> digit x ->
  sval (a ++ [y; x]) = sval (a ++ [y]).
Proof.
  intros R Hy Hx.
  rewrite !sval_app by discriminate. rewrite sval_cons2, !sval_1.
  f_equal. f_equal. unfold redundant in R. ub.
  destruct (Z.ltb_spec x 2147483648), (Z.ltb_spec y 2147483648); lia.
Qed.

Lemma top2_range a y x : Forall digit a -> digit y -> digit x ->
  (rng (length a + 1) (sval (a ++ [y; x])) <-> redundant y x).
Proof.
  intros Fa Hy Hx. split.
  - intros R. unfold rng in R.
    rewrite sval_app in R by discriminate.
    rewrite sval_cons2, sval_1 in R.
    rewrite Bp_add, Bp_1 in R.
    pose proof (uval_bound a Fa). pose proof (Bp_pos (length a)).
    unfold redundant. ub.
    destruct (Z.ltb_spec x 2147483648); nia.
  - intros R. rewrite (top2_value _ _ _ R Hy Hx).
    pose proof (sval_rng (a ++ [y]) (wf_snoc a y Fa Hy)) as S.
    rewrite app_length in S. exact S.
Qed.

(** Semantic characterisation of [normal]. *)
Lemma normal_iff d : wf d ->
  (normal d <-> (length d = 1%nat \/ ~ rng (length d - 1) (sval d))).
Proof.
  intros W. split.
  - intros [_ M].
    destruct (wf_snoc_inv _ W) as (a & x & -> & Fa & Hx).
    destruct a as [|a0 a1] eqn:Ea; [left; reflexivity|].
    right. intros R. rewrite <- Ea in *.
    assert (Na : a <> []) by (rewrite Ea; discriminate). clear Ea a0 a1.
    destruct (exists_last Na) as (b & y & Eb). subst a.
    apply Forall_app in Fa as [Fb Fy]. inversion Fy as [|? ? H1 _]; subst.
    rewrite <- app_assoc in R, M. cbn [app] in R, M.
    assert (R' : rng (length b + 1) (sval (b ++ [y; x]))).
    { replace (length b + 1)%nat with (length (b ++ [y; x]) - 1)%nat; [exact R|].
      rewrite !app_length. cbn [length]. lia. }
    apply top2_range in R'; auto.
    specialize (M (b ++ [y]) (wf_snoc b y Fb H1)).
    rewrite (top2_value b y x R' H1 Hx) in M. specialize (M eq_refl).
    rewrite !app_length in M. cbn [length] in M. lia.
  - intros C. split; [assumption|]. intros d' W' E.
    destruct C as [C | C].
    + rewrite C. destruct W' as [N _]. destruct d'; [tauto | cbn [length]; lia].
    + destruct (le_lt_dec (length d) (length d')); [assumption|].
      exfalso. apply C. rewrite <- E. eapply rng_mono; [|apply sval_rng; assumption]. lia.
Qed.

Lemma normal_1 x : digit x -> normal [x].
Proof. intros. apply normal_iff; [apply wf_1; assumption | left; reflexivity]. Qed.

Lemma normal_top2 a y x : Forall digit a -> digit y -> digit x ->
  (normal (a ++ [y; x]) <-> ~ redundant y x).
Proof.
  intros Fa Hy Hx.
  assert (W : wf (a ++ [y; x])).
  { apply wf_app; auto. apply wf_cons; auto. apply wf_1; auto. }
  rewrite normal_iff by assumption.
  rewrite <- (top2_range a y x) by assumption.
  rewrite app_length. cbn [length].
  replace (length a + 2 - 1)%nat with (length a + 1)%nat by lia.
  split; [intros [H|H]; [lia | assumption] | tauto].
Qed.

Lemma normal_wf d : normal d -> wf d.
Proof. intros [H _]. exact H. Qed.

(** Uniqueness. *)
Lemma uval_inj a b : Forall digit a -> Forall digit b ->
  length a = length b -> uval a = uval b -> a = b.
Proof.
  intros Fa. revert b. induction Fa as [|x a Hx Fa IH]; intros b Fb L E.
  - destruct b; [reflexivity | discriminate].
  - destruct b as [|y b]; [discriminate|]. inversion Fb; subst.
    rewrite !uval_cons in E. injection L as L. ub.
    assert (x = y /\ uval a = uval b) as [-> E2] by lia.
    f_equal. apply IH; auto.
Qed.

Lemma sval_inj a b : wf a -> wf b -> length a = length b -> sval a = sval b -> a = b.
Proof.
  intros Wa Wb L E. apply uval_inj; [apply Wa | apply Wb | exact L |].
  pose proof (uval_bound a (proj2 Wa)). pose proof (uval_bound b (proj2 Wb)).
  rewrite L in *. unfold sval in E. rewrite pow32 in E. fold (Bp (length a)) in E.
  fold (Bp (length b)) in E. rewrite L in E.
  pose proof (Bp_pos (length b)).
  destruct (_ <=? last a 0), (_ <=? last b 0); nia.
Qed.

Lemma normal_unique a b : normal a -> normal b -> sval a = sval b -> a = b.
Proof.
  intros Na Nb E. apply sval_inj; auto using normal_wf.
  pose proof (proj2 Na b (normal_wf _ Nb) (eq_sym E)).
  pose proof (proj2 Nb a (normal_wf _ Na) E). lia.
Qed.

Lemma back_sign d : wf d -> is_negative d = (sval d <? 0).
Proof.
  intros W. destruct (wf_snoc_inv _ W) as (a & x & -> & Fa & Hx).
  unfold is_negative, back. rewrite last_snoc, sval_snoc.
  pose proof (uval_bound a Fa). pose proof (Bp_pos (length a)).
  ub. destruct (Z.leb_spec 2147483648 x), (Z.ltb_spec x 2147483648); try lia;
    symmetry; first [apply Z.ltb_lt; nia | apply Z.ltb_ge; nia].
Qed.

(** Complement of all digits. *)
Lemma digit_cpl x : digit x -> digit (cpl x).
Proof. ub. lia. Qed.
Lemma digit_w32 x : digit (w32 x).
Proof. ub. lia. Qed.
Lemma cpl_cpl x : cpl (cpl x) = x.
Proof. unfold cpl. lia. Qed.
Lemma Forall_cpl d : Forall digit d -> Forall digit (map cpl d).
Proof. induction 1; constructor; auto using digit_cpl. Qed.
Lemma map_cpl_cpl d : map cpl (map cpl d) = d.
Proof. rewrite map_map. rewrite <- (map_id d) at 2. apply map_ext, cpl_cpl. Qed.
Lemma wf_cpl d : wf d -> wf (map cpl d).
Proof. intros [H F]. split; [destruct d; [tauto|discriminate] | apply Forall_cpl; auto]. Qed.

Lemma uval_cpl d : uval (map cpl d) = Bp (length d) - 1 - uval d.
Proof.
  induction d as [|x d IH]; [reflexivity|].
  cbn [map length]. rewrite !uval_cons, IH, Bp_S. unfold cpl. ring.
Qed.

Lemma last_map_cpl d : d <> [] -> last (map cpl d) 0 = cpl (last d 0).
Proof.
  intros H. destruct (exists_last H) as (a & x & ->).
  rewrite map_app. cbn [map]. rewrite !last_snoc. reflexivity.
Qed.

Lemma sval_cpl d : wf d -> sval (map cpl d) = - 1 - sval d.
Proof.
  intros W. destruct (wf_snoc_inv _ W) as (a & x & -> & Fa & Hx).
  rewrite map_app. cbn [map]. rewrite !sval_snoc, uval_cpl, map_length.
  ub. destruct (Z.ltb_spec x 2147483648), (Z.ltb_spec (4294967296 - 1 - x) 2147483648); lia.
Qed.

Lemma normal_cpl d : normal d -> normal (map cpl d).
Proof.
  intros [W M]. split; [apply wf_cpl; assumption|].
  intros d' W' E. rewrite map_length. rewrite <- (map_length cpl d').
  apply M; [apply wf_cpl; assumption|].
  rewrite sval_cpl, E, sval_cpl by assumption. lia.
Qed.

(** carry *)
Lemma carry_1 x : carry [x] = if w32 (x + 1) =? neg_flag then [w32 (x + 1); 0] else [w32 (x + 1)].
Proof. reflexivity. Qed.
Lemma carry_2 x y t : carry (x :: y :: t) =
  if negb (w32 (x + 1) =? 0) then
    match t with
    | [] => if (w32 (x + 1) =? neg_flag) && (cpl y =? 0) then [w32 (x + 1)] else w32 (x + 1) :: y :: t
    | _ => w32 (x + 1) :: y :: t
    end
  else w32 (x + 1) :: carry (y :: t).
Proof. destruct t; reflexivity. Qed.
Lemma borrow_1 x : borrow [x] = if w32 (x - 1) =? cpl neg_flag then [w32 (x - 1); B - 1] else [w32 (x - 1)].
Proof. reflexivity. Qed.
Lemma borrow_2 x y t : borrow (x :: y :: t) =
  if negb (cpl (w32 (x - 1)) =? 0) then
    match t with
    | [] => if (w32 (x - 1) =? cpl neg_flag) && (y =? 0) then [w32 (x - 1)] else w32 (x - 1) :: y :: t
    | _ => w32 (x - 1) :: y :: t
    end
  else w32 (x - 1) :: borrow (y :: t).
Proof. destruct t; reflexivity. Qed.

Lemma carry_ne s : s <> [] -> carry s <> [].
Proof.
  destruct s as [|x [|y t]]; intros H; [tauto| |].
  - rewrite carry_1. destruct (_ =? _); discriminate.
  - rewrite carry_2. destruct (negb _); [|discriminate].
    destruct t; [destruct (_ && _)|]; discriminate.
Qed.

Lemma carry_spec s : wf s -> wf (carry s) /\ sval (carry s) = sval s + 1.
Proof.
  induction s as [|x t IH]; intros W; [destruct W; tauto|].
  destruct t as [|y t].
  - destruct W as [_ F]. inversion F; subst. rewrite carry_1.
    destruct (Z.eqb_spec (w32 (x + 1)) neg_flag) as [E|E].
    + rewrite E. split; [apply wf_cons, wf_1; ub; lia|].
      rewrite sval_cons2, !sval_1. ub.
      destruct (Z.ltb_spec 0 2147483648), (Z.ltb_spec x 2147483648); lia.
    + split; [apply wf_1, digit_w32|]. rewrite !sval_1. ub.
      destruct (Z.ltb_spec ((x+1) mod 4294967296) 2147483648), (Z.ltb_spec x 2147483648); lia.
  - apply wf_cons_inv in W as [Hx W].
    rewrite carry_2.
    destruct (Z.eqb_spec (w32 (x + 1)) 0) as [E|E]; cbn [negb].
    + specialize (IH W) as [IH1 IH2]. split.
      * apply wf_cons; [apply digit_w32 | exact IH1].
      * rewrite !sval_cons by (discriminate || apply carry_ne; discriminate).
        rewrite IH2. ub. lia.
    + assert (H0 : wf (w32 (x + 1) :: y :: t) /\
        sval (w32 (x + 1) :: y :: t) = sval (x :: y :: t) + 1).
      { split; [apply wf_cons; [apply digit_w32 | exact W]|].
        rewrite !sval_cons2. ub. lia. }
      destruct t as [|z t]; [|exact H0].
      destruct (Z.eqb_spec (w32 (x + 1)) neg_flag) as [E1|E1]; cbn [andb]; [|exact H0].
      destruct (Z.eqb_spec (cpl y) 0) as [E2|E2]; [|exact H0].
      split; [apply wf_1, digit_w32|]. rewrite E1.
      rewrite sval_cons2, !sval_1. destruct W as [_ F]. inversion F; subst.
      ub. destruct (Z.ltb_spec 2147483648 2147483648), (Z.ltb_spec y 2147483648); lia.
Qed.

Lemma snoc2 {A} (l : list A) : (2 <= length l)%nat -> exists a y x, l = a ++ [y; x].
Proof.
  intros H. destruct (@exists_last _ l) as (b & x & ->); [destruct l; cbn in H; [lia|discriminate]|].
  rewrite app_length in H. cbn [length] in H.
  destruct (@exists_last _ b) as (a & y & ->); [destruct b; cbn in H; [lia|discriminate]|].
  exists a, y, x. rewrite <- app_assoc. reflexivity.
Qed.

(** Normality only depends on the top two digits. *)
Lemma normal_app a b : Forall digit a -> wf b -> (2 <= length b)%nat ->
  (normal (a ++ b) <-> normal b).
Proof.
  intros Fa Wb L. destruct (snoc2 b L) as (c & y & x & ->).
  destruct Wb as [_ Fb]. apply Forall_app in Fb as [Fc Fyx].
  inversion Fyx as [|? ? Hy Fx]; subst. inversion Fx; subst.
  rewrite app_assoc, !normal_top2; auto; [reflexivity|].
  apply Forall_app; auto.
Qed.

Lemma normal_pair y x : digit y -> digit x -> (normal [y; x] <-> ~ redundant y x).
Proof. intros. apply (normal_top2 [] y x); auto. Qed.

Lemma carry_normal s : normal s -> normal (carry s).
Proof.
  induction s as [|x t IH]; intros N; [destruct N as [[] _]; tauto|].
  pose proof (normal_wf _ N) as W.
  destruct t as [|y t].
  - destruct W as [_ F]. inversion F; subst. rewrite carry_1.
    destruct (Z.eqb_spec (w32 (x + 1)) neg_flag) as [E|E].
    + rewrite E. apply normal_pair; [ub; lia | ub; lia | unfold redundant; ub; lia].
    + apply normal_1, digit_w32.
  - apply wf_cons_inv in W as [Hx W].
    rewrite carry_2.
    destruct t as [|z t].
    + assert (Hy : digit y) by (destruct W as [_ F]; inversion F; auto).
      apply normal_pair in N; auto.
      destruct (Z.eqb_spec (w32 (x + 1)) 0) as [E|E]; cbn [negb].
      * rewrite carry_1.
        destruct (Z.eqb_spec (w32 (y + 1)) neg_flag) as [E2|E2].
        -- apply (normal_top2 [w32 (x+1)]); [constructor; auto using digit_w32|apply digit_w32| |].
           ++ ub; lia.
           ++ unfold redundant. ub. lia.
        -- apply normal_pair; auto using digit_w32. unfold redundant in *. ub. lia.
      * destruct (Z.eqb_spec (w32 (x + 1)) neg_flag) as [E1|E1]; cbn [andb].
        -- destruct (Z.eqb_spec (cpl y) 0) as [E2|E2]; [apply normal_1, digit_w32|].
           apply normal_pair; auto using digit_w32. unfold redundant in *. ub. lia.
        -- apply normal_pair; auto using digit_w32. unfold redundant in *. ub. lia.
    + assert (N' : normal (y :: z :: t)).
      { apply (normal_app [x] (y :: z :: t)); auto. cbn [length]. lia. }
      destruct (Z.eqb_spec (w32 (x + 1)) 0) as [E|E]; cbn [negb].
      * specialize (IH N'). destruct (carry_spec _ W) as [Wc Vc].
        remember (carry (y :: z :: t)) as c. destruct c as [|c0 [|c1 c]].
        -- destruct Wc; tauto.
        -- (* popped to one digit *)
           clear IH. rewrite carry_2 in Heqc.
           destruct (Z.eqb_spec (w32 (y + 1)) 0); cbn [negb] in Heqc.
           { exfalso.
             assert (carry (z :: t) <> []) by (apply carry_ne; discriminate). congruence. }
           destruct t; [|discriminate].
           destruct (Z.eqb_spec (w32 (y + 1)) neg_flag) as [E1|E1]; cbn [andb] in Heqc; [|discriminate].
           destruct (_ =? _); [|discriminate]. injection Heqc as ->.
           apply normal_pair; auto using digit_w32. unfold redundant. rewrite E1. ub. lia.
        -- apply (normal_app [w32 (x + 1)] (c0 :: c1 :: c)); auto using digit_w32.
           cbn [length]. lia.
      * apply (normal_app [w32 (x + 1)] (y :: z :: t)); auto using digit_w32. cbn [length]. lia.
Qed.

(** borrow is the mirror image of carry *)
Lemma borrow_dual s : Forall digit s -> borrow s = map cpl (carry (map cpl s)).
Proof.
  induction 1 as [|x t Hx Ft IH]; [reflexivity|].
  assert (E1 : w32 (x - 1) = cpl (w32 (cpl x + 1))) by (ub; lia).
  destruct t as [|y t].
  - cbn [map]. rewrite borrow_1, carry_1, E1.
    assert (E2 : (cpl (w32 (cpl x + 1)) =? cpl neg_flag) = (w32 (cpl x + 1) =? neg_flag)).
    { pose proof (digit_w32 (cpl x + 1)). ub.
      destruct (Z.eqb_spec (4294967296 - 1 - (4294967296 - 1 - x + 1) mod 4294967296) (4294967296 - 1 - 2147483648)),
       (Z.eqb_spec ((4294967296 - 1 - x + 1) mod 4294967296) 2147483648); lia. }
    rewrite E2. destruct (_ =? neg_flag); reflexivity.
  - rewrite borrow_2, IH. cbn [map]. rewrite carry_2.
    rewrite E1, cpl_cpl.
    destruct (negb (w32 (cpl x + 1) =? 0)) eqn:En; [|reflexivity].
    destruct t as [|z t].
    + cbn [map]. inversion Ft; subst.
      assert (E2 : (cpl (w32 (cpl x + 1)) =? cpl neg_flag) = (w32 (cpl x + 1) =? neg_flag)).
      { unfold cpl at 1 3. apply Bool.eq_iff_eq_true. rewrite !Z.eqb_eq. lia. }
      rewrite E2, cpl_cpl. destruct (_ && _); cbn [map]; rewrite ?cpl_cpl; reflexivity.
    + cbn [map]. rewrite !cpl_cpl, map_cpl_cpl. reflexivity.
Qed.

Lemma borrow_spec s : wf s -> wf (borrow s) /\ sval (borrow s) = sval s - 1.
Proof.
  intros W. rewrite borrow_dual by apply W.
  destruct (carry_spec _ (wf_cpl _ W)) as [W1 V1]. split; [apply wf_cpl; assumption|].
  rewrite sval_cpl, V1, sval_cpl by assumption. lia.
Qed.

Lemma borrow_normal s : normal s -> normal (borrow s).
Proof.
  intros N. rewrite borrow_dual by apply N.
  apply normal_cpl, carry_normal, normal_cpl, N.
Qed.

(** shrink *)
Lemma shrink_neg_rev_2 x y t : shrink_neg_rev (x :: y :: t) =
  if (cpl x =? 0) && (neg_flag <=? y) then shrink_neg_rev (y :: t) else x :: y :: t.
Proof. reflexivity. Qed.
Lemma shrink_pos_rev_2 x y t : shrink_pos_rev (x :: y :: t) =
  if (x =? 0) && (y <? neg_flag) then shrink_pos_rev (y :: t) else x :: y :: t.
Proof. reflexivity. Qed.

Ltac split4 := refine (conj _ (conj _ (conj _ _))).

Lemma shrink_neg_spec d : wf d -> wf (shrink_neg d) /\ sval (shrink_neg d) = sval d /\
  (sval d < 0 -> normal (shrink_neg d)) /\ (0 <= sval d -> shrink_neg d = d).
Proof.
  intros W. unfold shrink_neg.
  rewrite <- (rev_involutive d) in W |- *. remember (rev d) as r. clear Heqr d.
  rewrite rev_involutive.
  induction r as [|x r IH]; [destruct W; tauto|].
  destruct r as [|y r].
  - cbn [rev shrink_neg_rev app] in *. split4; auto.
    intros _. apply normal_1; destruct W as [_ F]; inversion F; auto.
  - rewrite shrink_neg_rev_2.
    assert (D : Forall digit (rev r) /\ digit y /\ digit x).
    { destruct W as [_ F]. cbn [rev] in F. rewrite <- app_assoc in F. cbn [app] in F.
      apply Forall_app in F as [F1 F2]. inversion F2 as [|? ? ? F3]; subst. inversion F3; auto. }
    destruct D as (Fr & Hy & Hx).
    assert (Er : rev (x :: y :: r) = rev r ++ [y; x]).
    { cbn [rev]. rewrite <- app_assoc. reflexivity. }
    assert (Ey : rev (y :: r) = rev r ++ [y]) by reflexivity.
    destruct (Z.eqb_spec (cpl x) 0) as [Ex|Ex]; cbn [andb].
    + destruct (Z.leb_spec neg_flag y) as [Hn|Hn].
      * assert (Wy : wf (rev (y :: r))) by (rewrite Ey; apply wf_snoc; auto).
        specialize (IH Wy) as (I1 & I2 & I3 & I4).
        assert (Es : sval (rev (x :: y :: r)) = sval (rev (y :: r))).
        { rewrite Er, Ey. apply top2_value; auto. right. ub. lia. }
        rewrite Es. split4; auto.
        intros P. exfalso. rewrite Ey, sval_snoc in P.
        pose proof (uval_bound _ Fr). pose proof (Bp_pos (length (rev r))).
        ub. destruct (Z.ltb_spec y 2147483648); [lia|]. nia.
      * split4; auto. intros _. rewrite Er. apply normal_top2; auto.
        unfold redundant. ub. lia.
    + split4; auto. intros P. rewrite Er. apply normal_top2; auto.
      unfold redundant. rewrite Er, sval_app in P by discriminate.
      rewrite sval_cons2, sval_1 in P.
      pose proof (uval_bound _ Fr). pose proof (Bp_pos (length (rev r))).
      ub. destruct (Z.ltb_spec x 2147483648); [nia|lia].
Qed.

Lemma shrink_pos_dual d : Forall digit d -> shrink_pos d = map cpl (shrink_neg (map cpl d)).
Proof.
  intros F. unfold shrink_pos, shrink_neg. rewrite <- map_rev, (map_rev cpl (shrink_neg_rev _)).
  f_equal. apply Forall_rev in F. revert F. generalize (rev d). clear d.
  induction l as [|x r IH]; intros F; [reflexivity|].
  inversion F as [|? ? Hx F']; subst. destruct r as [|y r].
  - cbn [map shrink_pos_rev shrink_neg_rev]. rewrite cpl_cpl. reflexivity.
  - cbn [map]. rewrite shrink_pos_rev_2, shrink_neg_rev_2.
    rewrite cpl_cpl. inversion F'; subst.
    assert (E : (neg_flag <=? cpl y) = (y <? neg_flag)).
    { ub. destruct (Z.leb_spec 2147483648 (4294967296-1-y)), (Z.ltb_spec y 2147483648); lia. }
    rewrite E. destruct (_ && _).
    + apply (IH F').
    + cbn [map]. rewrite !cpl_cpl, map_cpl_cpl. reflexivity.
Qed.

Lemma shrink_pos_spec d : wf d -> wf (shrink_pos d) /\ sval (shrink_pos d) = sval d /\
  (0 <= sval d -> normal (shrink_pos d)) /\ (sval d < 0 -> shrink_pos d = d).
Proof.
  intros W. rewrite shrink_pos_dual by apply W.
  destruct (shrink_neg_spec _ (wf_cpl _ W)) as (H1 & H2 & H3 & H4).
  rewrite sval_cpl in H2, H3, H4 by assumption.
  split4; [apply wf_cpl, H1 | | |].
  - rewrite sval_cpl, H2 by assumption. lia.
  - intros P. apply normal_cpl, H3. lia.
  - intros P. rewrite H4 by lia. apply map_cpl_cpl.
Qed.

Lemma shrink_spec d : wf d -> normal (shrink d) /\ sval (shrink d) = sval d.
Proof.
  intros W. unfold shrink. rewrite back_sign by assumption.
  destruct (Z.ltb_spec (sval d) 0).
  - destruct (shrink_neg_spec d W) as (H1 & H2 & H3 & H4). auto.
  - destruct (shrink_pos_spec d W) as (H1 & H2 & H3 & H4). auto.
Qed.
