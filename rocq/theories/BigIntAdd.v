(** Addition, subtraction, negation, comparison, conversions. *)

From Coq Require Import ZArith List Bool Lia.
From Verif Require Import BigIntModel BigIntSpec BigIntBase.
Import ListNotations.
Open Scope Z_scope.

Ltac Zify.zify_post_hook ::= Z.div_mod_to_equations.

(** Sign test by xor *)
Lemma high_bit x : digit x -> (neg_flag <=? x) = Z.testbit x 31.
Proof.
  intros H. apply Bool.eq_iff_eq_true. rewrite Z.leb_le.
  rewrite Z.testbit_true by lia. ub. change (2 ^ 31) with 2147483648. lia.
Qed.

Lemma digit_bits x : 0 <= x -> (forall i, 32 <= i -> Z.testbit x i = false) -> digit x.
Proof.
  intros H Hb. split; [assumption|].
  destruct (Z.eq_dec x 0) as [->|N]; [reflexivity|].
  apply Z.log2_lt_pow2; [lia|].
  destruct (Z_lt_dec (Z.log2 x) 32); [assumption|].
  exfalso. specialize (Hb (Z.log2 x)). rewrite Z.bit_log2 in Hb by lia.
  discriminate Hb. lia.
Qed.

Lemma digit_testbit x i : digit x -> 32 <= i -> Z.testbit x i = false.
Proof.
  intros [H1 H2] Hi. destruct (Z.eq_dec x 0) as [->|N]; [apply Z.bits_0|].
  apply Z.bits_above_log2; [assumption|].
  apply Z.log2_lt_pow2 in H2; lia.
Qed.

Lemma digit_lxor x y : digit x -> digit y -> digit (Z.lxor x y).
Proof.
  intros Hx Hy. apply digit_bits.
  - apply Z.lxor_nonneg. split; intros; [apply Hy|apply Hx].
  - intros. rewrite Z.lxor_spec, !digit_testbit by assumption. reflexivity.
Qed.
Lemma digit_land x y : digit x -> digit y -> digit (Z.land x y).
Proof.
  intros Hx Hy. apply digit_bits.
  - apply Z.land_nonneg. left; apply Hx.
  - intros. rewrite Z.land_spec, !digit_testbit by assumption. reflexivity.
Qed.
Lemma digit_lor x y : digit x -> digit y -> digit (Z.lor x y).
Proof.
  intros Hx Hy. apply digit_bits.
  - apply Z.lor_nonneg. split; [apply Hx | apply Hy].
  - intros. rewrite Z.lor_spec, !digit_testbit by assumption. reflexivity.
Qed.

Lemma lxor_sign x y : digit x -> digit y ->
  (neg_flag <=? Z.lxor x y) = xorb (neg_flag <=? x) (neg_flag <=? y).
Proof.
  intros. rewrite !high_bit by auto using digit_lxor. apply Z.lxor_spec.
Qed.

Lemma lxor_sign' x y : digit x -> digit y ->
  (Z.lxor x y <? neg_flag) = negb (xorb (neg_flag <=? x) (neg_flag <=? y)).
Proof.
  intros. rewrite <- lxor_sign by assumption. apply Z.ltb_antisym.
Qed.

(** The digit step *)
Lemma dstep_spec a b c : digit a -> digit b -> (c = 0 \/ c = 1) ->
  digit (fst (dstep a b c)) /\ (snd (dstep a b c) = 0 \/ snd (dstep a b c) = 1) /\
  fst (dstep a b c) + B * snd (dstep a b c) = a + b + c.
Proof.
  intros Ha Hb Hc. unfold dstep.
  destruct (Z.eqb_spec (w32 (b + c)) 0) as [E|E]; cbn [fst snd].
  - ub. lia.
  - destruct (Z.ltb_spec (w32 (a + w32 (b + c))) (w32 (b + c))); ub; lia.
Qed.

Lemma add_low_2 d x y t c : add_low d (x :: y :: t) c =
  match d with
  | [] => ([], [], 0, c)
  | di :: d' =>
      let '(z, c') := dstep di x c in
      let '(lo, u, xl, cf) := add_low d' (y :: t) c' in (z :: lo, u, xl, cf)
  end.
Proof. destruct d; reflexivity. Qed.
Lemma add_low_1 d x c : add_low d [x] c = ([], d, x, c).
Proof. destruct d; reflexivity. Qed.

Lemma add_low_spec x : forall d c lo t xl cf,
  x <> [] -> (length x <= length d)%nat -> Forall digit d -> Forall digit x ->
  (c = 0 \/ c = 1) -> add_low d x c = (lo, t, xl, cf) ->
  exists pre xs, d = pre ++ t /\ x = xs ++ [xl] /\ length pre = length lo /\
    length xs = length lo /\ Forall digit lo /\ (cf = 0 \/ cf = 1) /\ t <> [] /\
    uval lo + Bp (length lo) * cf = uval pre + uval xs + c.
Proof.
  induction x as [|xi x IH]; intros d c lo t xl cf Ne L Fd Fx Hc E; [tauto|].
  destruct x as [|xj x].
  - rewrite add_low_1 in E. injection E as <- <- <- <-.
    exists [], []. destruct d; [cbn in L; lia|].
    repeat split; auto; try discriminate. cbn [uval length]. rewrite Bp_0. lia.
  - destruct d as [|di d]; [cbn in L; lia|].
    rewrite add_low_2 in E. inversion Fd as [|? ? Hd Fd']; subst. inversion Fx as [|? ? Hx Fx']; subst.
    destruct (dstep_spec di xi c Hd Hx Hc) as (D1 & D2 & D3).
    destruct (dstep di xi c) as [y c']. cbn [fst snd] in D1, D2, D3.
    destruct (add_low d (xj :: x) c') as [[[lo' t'] xl'] cf'] eqn:E'.
    injection E as <- -> -> ->.
    cbn [length] in L.
    destruct (IH d c' lo' t xl cf) as (pre & xs & P1 & P2 & P3 & P4 & P5 & P6 & P7 & P8);
      auto; [discriminate | cbn [length]; lia |].
    exists (di :: pre), (xi :: xs). rewrite P1, P2. cbn [length app].
    repeat split; auto.
    rewrite !uval_cons, Bp_S. nia.
Qed.

(** Generic second half of addition: [add_high]. *)
Lemma add_high_value lo t xl c : Forall digit lo -> wf t -> digit xl -> (c = 0 \/ c = 1) ->
  wf (add_high lo t xl c) /\
  sval (add_high lo t xl c) = uval lo + Bp (length lo) * (sval t + s32 xl + c).
Proof.
  intros Fl Wt Hx Hc.
  destruct t as [|y r]; [destruct Wt; tauto|].
  destruct r as [|z r].
  - assert (Hy : digit y) by (destruct Wt as [_ F]; inversion F; auto).
    rewrite sval_1. cbn [add_high].
    rewrite lxor_sign by assumption.
    remember (w32 (y + w32 (xl + c))) as y' eqn:Ey.
    assert (Hy' : digit y') by (subst; apply digit_w32).
    rewrite lxor_sign by assumption.
    assert (V : forall v, (v = s32 y') -> sval (lo ++ [y']) = uval lo + Bp (length lo) * v).
    { intros v ->. rewrite sval_snoc. reflexivity. }
    destruct (Z.leb_spec neg_flag y) as [Cy|Cy], (Z.leb_spec neg_flag xl) as [Cx|Cx]; cbn [xorb].
    + destruct (Z.leb_spec neg_flag y') as [Cz|Cz]; cbn [xorb].
      * split; [apply wf_snoc; auto|]. apply V. ub.
        destruct (Z.ltb_spec y 2147483648), (Z.ltb_spec xl 2147483648), (Z.ltb_spec y' 2147483648); lia.
      * split; [apply wf_app; auto; apply wf_cons; auto; apply wf_1; ub; lia|].
        rewrite sval_app, sval_cons2, sval_1 by discriminate. f_equal. f_equal. ub.
        destruct (Z.ltb_spec y 2147483648), (Z.ltb_spec xl 2147483648), (Z.ltb_spec (4294967296-1) 2147483648); lia.
    + destruct (shrink_spec (lo ++ [y'])) as [N S]; [apply wf_snoc; auto|].
      split; [apply normal_wf; exact N|]. rewrite S. apply V. ub.
      destruct (Z.ltb_spec y 2147483648), (Z.ltb_spec xl 2147483648), (Z.ltb_spec y' 2147483648); lia.
    + destruct (shrink_spec (lo ++ [y'])) as [N S]; [apply wf_snoc; auto|].
      split; [apply normal_wf; exact N|]. rewrite S. apply V. ub.
      destruct (Z.ltb_spec y 2147483648), (Z.ltb_spec xl 2147483648), (Z.ltb_spec y' 2147483648); lia.
    + destruct (Z.leb_spec neg_flag y') as [Cz|Cz]; cbn [xorb].
      * split; [apply wf_app; auto; apply wf_cons; auto; apply wf_1; ub; lia|].
        rewrite sval_app, sval_cons2, sval_1 by discriminate. f_equal. f_equal. ub.
        destruct (Z.ltb_spec y 2147483648), (Z.ltb_spec xl 2147483648), (Z.ltb_spec 0 2147483648); lia.
      * split; [apply wf_snoc; auto|]. apply V. ub.
        destruct (Z.ltb_spec y 2147483648), (Z.ltb_spec xl 2147483648), (Z.ltb_spec y' 2147483648); lia.
  - apply wf_cons_inv in Wt as [Hy Wr]. cbn [add_high].
    remember (w32 (xl + c)) as s eqn:Es.
    remember (w32 (y + s)) as y' eqn:Ey.
    assert (Hy' : digit y') by (subst; apply digit_w32).
    rewrite sval_cons2.
    destruct (carry_spec _ Wr) as [Wc Vc]. destruct (borrow_spec _ Wr) as [Wb Vb].
    assert (W0 : wf (lo ++ y' :: z :: r)) by (apply wf_app; auto; apply wf_cons; auto).
    assert (V0 : sval (lo ++ y' :: z :: r) = uval lo + Bp (length lo) * (y' + B * sval (z :: r))).
    { rewrite sval_app, sval_cons2 by discriminate. reflexivity. }
    destruct (Z.ltb_spec xl neg_flag) as [Cx|Cx].
    + destruct (Z.ltb_spec y' s) as [Cs|Cs].
      * split; [apply wf_app; auto; apply wf_cons; auto|].
        rewrite sval_app, sval_cons, Vc by (discriminate || apply Wc). f_equal. f_equal.
        ub. destruct (Z.ltb_spec xl 2147483648); lia.
      * destruct (shrink_neg_spec _ W0) as (S1 & S2 & _). split; [exact S1|].
        rewrite S2, V0. f_equal. f_equal. ub. destruct (Z.ltb_spec xl 2147483648); lia.
    + destruct (Z.eqb_spec s 0) as [C0|C0]; cbn [negb].
      * split; [apply wf_app; auto; apply wf_cons; auto|].
        rewrite sval_app, sval_cons2 by discriminate. f_equal. f_equal.
        ub. destruct (Z.ltb_spec xl 2147483648); lia.
      * destruct (Z.leb_spec s y') as [Cs|Cs].
        -- split; [apply wf_app; auto; apply wf_cons; auto|].
           rewrite sval_app, sval_cons, Vb by (discriminate || apply Wb). f_equal. f_equal.
           ub. destruct (Z.ltb_spec xl 2147483648); lia.
        -- destruct (shrink_pos_spec _ W0) as (S1 & S2 & _). split; [exact S1|].
           rewrite S2, V0. f_equal. f_equal. ub. destruct (Z.ltb_spec xl 2147483648); lia.
Qed.

(** Normality of the result of [add_high]: [t] is the part of a vector [d] from
    the position of the last digit of [x] onwards. *)
Lemma add_high_normal pre lo t xs xl c cf :
  length pre = length lo -> length xs = length lo ->
  Forall digit pre -> Forall digit xs -> Forall digit lo -> wf t -> digit xl ->
  (c = 0 \/ c = 1) -> (cf = 0 \/ cf = 1) ->
  uval lo + Bp (length lo) * cf = uval pre + uval xs + c ->
  (length t = 1%nat -> normal (xs ++ [xl])) ->
  ((2 <= length t)%nat -> normal (pre ++ t)) ->
  normal (add_high lo t xl cf).
Proof.
  intros L1 L2 Fp Fs Fl Wt Hx Hc Hcf V N1 N2.
  destruct (add_high_value lo t xl cf Fl Wt Hx Hcf) as [WR VR].
  pose proof (uval_bound lo Fl) as Bl. pose proof (uval_bound pre Fp) as Bpre.
  pose proof (uval_bound xs Fs) as Bxs. pose proof (Bp_pos (length lo)) as Pp.
  rewrite L1 in Bpre. rewrite L2 in Bxs.
  destruct t as [|y r]; [destruct Wt; tauto|].
  destruct r as [|z r].
  - (* equal length *)
    specialize (N1 eq_refl).
    assert (Hy : digit y) by (destruct Wt as [_ F]; inversion F; auto).
    revert WR VR. rewrite sval_1. cbn [add_high].
    rewrite lxor_sign by assumption.
    remember (w32 (y + w32 (xl + cf))) as y' eqn:Ey.
    assert (Hy' : digit y') by (subst; apply digit_w32).
    rewrite lxor_sign by assumption.
    assert (NR : forall v, sval (lo ++ [y']) = v ->
        (length lo = 0%nat \/ ~ rng (length lo) v) -> normal (lo ++ [y'])).
    { intros v <- C. apply normal_iff; [apply wf_snoc; auto|].
      rewrite app_length. cbn [length].
      replace (length lo + 1 - 1)%nat with (length lo) by lia.
      destruct C as [C|C]; [left; lia | right; exact C]. }
    assert (N1' : length lo = 0%nat \/ ~ rng (length lo) (sval (xs ++ [xl]))).
    { apply normal_iff in N1; [|apply wf_snoc; auto].
      rewrite app_length in N1. cbn [length] in N1.
      replace (length xs + 1 - 1)%nat with (length lo) in N1 by lia.
      destruct N1 as [N1|N1]; [left; lia | right; exact N1]. }
    unfold rng in N1'. rewrite sval_snoc, L2 in N1'.
    destruct (Z.leb_spec neg_flag y) as [Cy|Cy], (Z.leb_spec neg_flag xl) as [Cx|Cx]; cbn [xorb];
    try (intros; apply shrink_spec, wf_snoc; assumption).
    + destruct (Z.leb_spec neg_flag y') as [Cz|Cz]; cbn [xorb]; intros WR VR.
      * eapply NR; [exact VR|]. destruct N1' as [N1'|N1']; [left; exact N1'|right]. unfold rng.
        clear NR N2. ub.
        destruct (Z.ltb_spec y 2147483648), (Z.ltb_spec xl 2147483648); first [lia|nia].
      * apply normal_top2; auto; [ub; lia|]. unfold redundant. clear - Cz. ub. lia.
    + destruct (Z.leb_spec neg_flag y') as [Cz|Cz]; cbn [xorb]; intros WR VR.
      * apply normal_top2; auto; [ub; lia|]. unfold redundant. clear - Cz. ub. lia.
      * eapply NR; [exact VR|]. destruct N1' as [N1'|N1']; [left; exact N1'|right]. unfold rng.
        clear NR N2. ub.
        destruct (Z.ltb_spec y 2147483648), (Z.ltb_spec xl 2147483648); first [lia|nia].
  - (* x shorter *)
    clear N1. assert (N : normal (pre ++ y :: z :: r)) by (apply N2; cbn [length]; lia). clear N2.
    apply wf_cons_inv in Wt as [Hy Wr].
    assert (NT : normal (y :: z :: r)).
    { rewrite normal_app in N; auto; [apply wf_cons; auto | cbn [length]; lia]. }
    revert WR VR. cbn [add_high].
    remember (w32 (xl + cf)) as s eqn:Es.
    remember (w32 (y + s)) as y' eqn:Ey.
    assert (Hy' : digit y') by (subst; apply digit_w32).
    assert (W0 : wf (lo ++ y' :: z :: r)) by (apply wf_app; auto; apply wf_cons; auto).
    assert (V0 : sval (lo ++ y' :: z :: r) = uval lo + Bp (length lo) * (y' + B * sval (z :: r))).
    { rewrite sval_app, sval_cons2 by discriminate. reflexivity. }
    assert (Nrng : ~ rng (length r + 1) (sval (y :: z :: r))).
    { apply normal_iff in NT; [|apply wf_cons; auto].
      destruct NT as [NT|NT]; [cbn in NT; lia|]. cbn [length] in NT.
      replace (S (S (length r)) - 1)%nat with (length r + 1)%nat in NT by lia. exact NT. }
    unfold rng in Nrng. rewrite sval_cons2 in Nrng.
    rewrite Bp_add, Bp_1 in Nrng.
    (* normality of same-shape list whose upper value moved away from 0 *)
    assert (Same : (0 <= sval (z::r) /\ y <= y' \/ sval (z::r) < 0 /\ y' <= y) ->
                    normal (lo ++ y' :: z :: r)).
    { intros C. apply normal_app; auto; [apply wf_cons; auto | cbn [length]; lia |].
      apply normal_iff; [apply wf_cons; auto|]. right. cbn [length].
      replace (S (S (length r)) - 1)%nat with (length r + 1)%nat by lia.
      unfold rng. rewrite sval_cons2. rewrite Bp_add, Bp_1.
      clear V0 N. pose proof (Bp_pos (length r)).
      intros R. apply Nrng. ub. lia. }
    assert (Carry1 : forall w, wf w -> (2 <= length w)%nat -> normal w -> normal (lo ++ y' :: w)).
    { intros w Ww Lw Nw. change (y' :: w) with ([y'] ++ w). rewrite app_assoc.
      apply normal_app; auto. apply Forall_app; auto. }
    destruct (Z.ltb_spec xl neg_flag) as [Cx|Cx].
    + destruct (Z.ltb_spec y' s) as [Cs|Cs]; intros WR VR.
      * (* carry *)
        destruct r as [|z2 r].
        -- assert (Hz : digit z) by (destruct Wr as [_ F]; inversion F; auto).
           apply normal_pair in NT; auto. rewrite carry_1.
           destruct (Z.eqb_spec (w32 (z + 1)) neg_flag) as [E|E].
           ++ change (y' :: [w32 (z + 1); 0]) with ([y'] ++ [w32 (z+1); 0]). rewrite app_assoc.
              apply normal_top2; [apply Forall_app; auto | apply digit_w32 | ub; lia |].
              unfold redundant. clear - E. ub. lia.
           ++ apply normal_top2; auto using digit_w32.
              unfold redundant in *. clear - NT Cs Es Ey Cx Hcf Hx Hy Hz. ub. lia.
        -- assert (NC : normal (z :: z2 :: r)).
           { apply (normal_app [y] (z :: z2 :: r)); auto. cbn [length]. lia. }
           pose proof (carry_normal _ NC) as NC'. pose proof (normal_wf _ NC') as WC'.
           remember (carry (z :: z2 :: r)) as w eqn:Ew.
           destruct w as [|w0 [|w1 w]]; [destruct WC'; tauto| |apply Carry1; auto; cbn [length]; lia].
           rewrite carry_2 in Ew.
           destruct (Z.eqb_spec (w32 (z + 1)) 0) as [E0|E0]; cbn [negb] in Ew.
           { exfalso. assert (carry (z2 :: r) <> []) by (apply carry_ne; discriminate). congruence. }
           destruct r; [|discriminate].
           destruct (Z.eqb_spec (w32 (z + 1)) neg_flag) as [E1|E1]; cbn [andb] in Ew; [|discriminate].
           destruct (_ =? _); [|discriminate]. injection Ew as ->.
           apply normal_top2; auto using digit_w32. unfold redundant. rewrite E1. ub. lia.
      * destruct (shrink_neg_spec _ W0) as (S1 & S2 & S3 & S4).
        destruct (Z_lt_dec (sval (lo ++ y' :: z :: r)) 0) as [C|C]; [apply S3; assumption|].
        rewrite S4 by lia. apply Same. left. rewrite V0 in C.
        split; [|ub; lia]. clear - C Bl Pp Hy'. ub. nia.
    + destruct (Z.eqb_spec s 0) as [C0|C0]; cbn [negb].
      * intros _ _. assert (y' = y) by (ub; lia). rewrite <- H. apply Same.
        rewrite H. lia.
      * destruct (Z.leb_spec s y') as [Cs|Cs]; intros WR VR.
        -- (* borrow *)
           destruct r as [|z2 r].
           ++ assert (Hz : digit z) by (destruct Wr as [_ F]; inversion F; auto).
              apply normal_pair in NT; auto. rewrite borrow_1.
              destruct (Z.eqb_spec (w32 (z - 1)) (cpl neg_flag)) as [E|E].
              ** change (y' :: [w32 (z - 1); B - 1]) with ([y'] ++ [w32 (z-1); B - 1]). rewrite app_assoc.
                 apply normal_top2; [apply Forall_app; auto | apply digit_w32 | ub; lia |].
                 unfold redundant. clear - E. ub. lia.
              ** apply normal_top2; auto using digit_w32.
                 unfold redundant in *. clear - NT Cs Es Ey Cx Hcf Hx Hy Hz C0. ub. lia.
           ++ assert (NC : normal (z :: z2 :: r)).
              { apply (normal_app [y] (z :: z2 :: r)); auto. cbn [length]. lia. }
              pose proof (borrow_normal _ NC) as NC'. pose proof (normal_wf _ NC') as WC'.
              remember (borrow (z :: z2 :: r)) as w eqn:Ew.
              destruct w as [|w0 [|w1 w]]; [destruct WC'; tauto| |apply Carry1; auto; cbn [length]; lia].
              rewrite borrow_2 in Ew.
              destruct (Z.eqb_spec (cpl (w32 (z - 1))) 0) as [E0|E0]; cbn [negb] in Ew.
              { exfalso. assert (borrow (z2 :: r) <> []).
                { destruct (borrow_spec (z2 :: r)) as [[? _] _]; [apply wf_cons_inv in Wr; apply Wr|assumption]. }
                congruence. }
              destruct r; [|discriminate].
              destruct (Z.eqb_spec (w32 (z - 1)) (cpl neg_flag)) as [E1|E1]; cbn [andb] in Ew; [|discriminate].
              destruct (_ =? _); [|discriminate]. injection Ew as ->.
              apply normal_top2; auto using digit_w32. unfold redundant. rewrite E1. ub. lia.
        -- destruct (shrink_pos_spec _ W0) as (S1 & S2 & S3 & S4).
           destruct (Z_lt_dec (sval (lo ++ y' :: z :: r)) 0) as [C|C]; [|apply S3; lia].
           rewrite S4 by lia. apply Same. right. rewrite V0 in C.
           split; [clear - C Bl Pp Hy'; ub; nia |ub; lia].
Qed.

Lemma add_gen d x c : wf d -> wf x -> (length x <= length d)%nat ->
  (c = 0 \/ c = 1) ->
  let '(lo, t, xl, cf) := add_low d x c in
  wf (add_high lo t xl cf) /\
  sval (add_high lo t xl cf) = sval d + sval x + c /\
  ((length x = length d -> normal x) -> (length x < length d -> normal d)%nat ->
   normal (add_high lo t xl cf)).
Proof.
  intros [Nd Fd] [Nx Fx] L Hc.
  destruct (add_low d x c) as [[[lo t] xl] cf] eqn:E.
  destruct (add_low_spec x d c lo t xl cf Nx L Fd Fx Hc E)
    as (pre & xs & P1 & P2 & P3 & P4 & P5 & P6 & P7 & P8).
  subst d x. apply Forall_app in Fd as [Fp Ft]. apply Forall_app in Fx as [Fs Fxl].
  inversion Fxl as [|? ? Hxl _]; subst.
  assert (Wt : wf t) by (split; assumption).
  destruct (add_high_value lo t xl cf P5 Wt Hxl P6) as [W V].
  split; [apply W|split].
  - rewrite V, sval_app, sval_snoc by assumption. rewrite P3, P4. nia.
  - intros H1 H2. rewrite !app_length in H1, H2. cbn [length] in H1, H2.
    eapply add_high_normal with (pre := pre) (xs := xs) (c := c); eauto.
    + intros Lt. apply H1. lia.
    + intros Lt. apply H2. lia.
Qed.

Lemma add_spec d x : wf d -> wf x -> (length x <= length d)%nat ->
  wf (add d x) /\ sval (add d x) = sval d + sval x /\
  ((length x = length d -> normal x) -> (length x < length d -> normal d)%nat ->
   normal (add d x)).
Proof.
  intros Wd Wx L. pose proof (add_gen d x 0 Wd Wx L (or_introl eq_refl)) as H.
  unfold add. destruct (add_low d x 0) as [[[lo t] xl] cf]. rewrite Z.add_0_r in H. exact H.
Qed.

Lemma repeat_digit z n : digit z -> Forall digit (repeat z n).
Proof. intros. induction n; cbn; constructor; auto. Qed.

Lemma sign_extend_spec d s : wf d -> (length d <= s)%nat ->
  wf (sign_extend d s) /\ sval (sign_extend d s) = sval d /\ length (sign_extend d s) = s.
Proof.
  intros W L. unfold sign_extend.
  assert (Hz : digit (if is_negative d then B - 1 else 0)) by (destruct (is_negative d); ub; lia).
  split; [|split].
  - destruct W as [Ne F]. split; [destruct d; [tauto|discriminate]|].
    apply Forall_app. split; auto using repeat_digit.
  - remember (s - length d)%nat as k. clear Heqk L s.
    pose proof (back_sign d W) as Sg.
    destruct (wf_snoc_inv _ W) as (a & x & -> & Fa & Hx).
    revert Hz Sg. generalize (is_negative (a ++ [x])) as n. intros n Hz Sg.
    rewrite <- app_assoc. cbn [app].
    rewrite !sval_app by discriminate. f_equal. f_equal. rewrite sval_1.
    assert (E : n = negb (x <? neg_flag)).
    { subst n. rewrite sval_snoc. pose proof (uval_bound a Fa). pose proof (Bp_pos (length a)).
      clear Hz. ub. destruct (Z.ltb_spec x 2147483648); cbn [negb]; [apply Z.ltb_ge|apply Z.ltb_lt]; nia. }
    clear Sg. induction k as [|k IH]; [apply sval_1|].
    replace (repeat (if n then B - 1 else 0) (S k)) with (repeat (if n then B - 1 else 0) k ++ [if n then B - 1 else 0]).
    2:{ clear. induction k; cbn [repeat app] in *; [reflexivity | rewrite IHk; reflexivity]. }
    rewrite <- IH. clear IH.
    destruct k as [|k].
    + cbn [repeat app]. rewrite sval_cons2, !sval_1. subst n. clear Hz. ub.
      destruct (Z.ltb_spec x 2147483648); cbn [negb];
       [destruct (Z.ltb_spec 0 2147483648) | destruct (Z.ltb_spec (4294967296-1) 2147483648)]; lia.
    + replace (repeat (if n then B - 1 else 0) (S k)) with (repeat (if n then B - 1 else 0) k ++ [if n then B - 1 else 0]).
      2:{ clear. induction k; cbn [repeat app] in *; [reflexivity | rewrite IHk; reflexivity]. }
      rewrite <- app_assoc. cbn [app].
      change (x :: repeat (if n then B - 1 else 0) k ++ [if n then B - 1 else 0; if n then B - 1 else 0])
        with ((x :: repeat (if n then B - 1 else 0) k) ++ [if n then B - 1 else 0; if n then B - 1 else 0]).
      apply top2_value; auto. unfold redundant. destruct n; [right|left]; ub; lia.
  - rewrite app_length, repeat_length. lia.
Qed.

(** Addition *)
Theorem add_assign_correct d x : normal d -> normal x ->
  normal (add_assign d x) /\ sval (add_assign d x) = sval d + sval x.
Proof.
  intros Nd Nx. unfold add_assign. destruct (Nat.ltb_spec (length d) (length x)) as [L|L].
  - destruct (sign_extend_spec d (length x)) as (S1 & S2 & S3); [apply Nd|lia|].
    destruct (add_spec (sign_extend d (length x)) x) as (A1 & A2 & A3);
      [assumption|apply Nx|lia|].
    rewrite S2 in A2. split; [|exact A2]. apply A3; [auto|lia].
  - destruct (add_spec d x) as (A1 & A2 & A3); [apply Nd|apply Nx|lia|].
    split; [|exact A2]. apply A3; auto.
Qed.

Theorem add_assign_move_correct d x : normal d -> normal x ->
  normal (add_assign_move d x) /\ sval (add_assign_move d x) = sval d + sval x.
Proof.
  intros Nd Nx. unfold add_assign_move. destruct (Nat.ltb_spec (length d) (length x)) as [L|L].
  - destruct (add_spec x d) as (A1 & A2 & A3); [apply Nx|apply Nd|lia|].
    split; [|lia]. apply A3; auto.
  - destruct (add_spec d x) as (A1 & A2 & A3); [apply Nd|apply Nx|lia|].
    split; [|lia]. apply A3; auto.
Qed.

Theorem incr_correct d : normal d -> normal (incr d) /\ sval (incr d) = sval d + 1.
Proof. intros N. split; [apply carry_normal, N | apply carry_spec, N]. Qed.
Theorem decr_correct d : normal d -> normal (decr d) /\ sval (decr d) = sval d - 1.
Proof. intros N. split; [apply borrow_normal, N | apply borrow_spec, N]. Qed.

(** operator+=(digit) is addition of the one-digit number *)
Lemma add_digit_is_add d x : wf d -> digit x -> add_digit d x = add d [x].
Proof.
  intros [Ne F] Hx. unfold add, add_digit. rewrite add_low_1.
  destruct d as [|y r]; [tauto|]. inversion F as [|? ? Hy Fr]; subst.
  assert (E0 : w32 (x + 0) = x) by (ub; lia).
  destruct r as [|z r]; cbn [add_high app]; rewrite E0.
  - destruct (Z.leb_spec neg_flag (Z.lxor y x)) as [C|C].
    + unfold shrink. cbn. destruct (is_negative _); reflexivity.
    + destruct (Z.leb_spec neg_flag (Z.lxor (w32 (y + x)) x)) as [C2|C2]; [|reflexivity].
      f_equal. f_equal.
      assert (C' : (neg_flag <=? Z.lxor y x) = false) by (apply Z.leb_gt; lia).
      assert (C2' : (neg_flag <=? Z.lxor (w32 (y + x)) x) = true) by (apply Z.leb_le; lia).
      rewrite lxor_sign in C', C2' by auto using digit_w32.
      destruct (Z.ltb_spec x neg_flag), (Z.leb_spec neg_flag y), (Z.leb_spec neg_flag x),
        (Z.leb_spec neg_flag (w32 (y + x))); cbn in C', C2'; try discriminate; try reflexivity; lia.
  - destruct (Z.ltb_spec x neg_flag) as [C|C]; [reflexivity|].
    assert (E : (x =? 0) = false) by (apply Z.eqb_neq; ub; lia).
    rewrite E. cbn [negb]. reflexivity.
Qed.

Theorem add_digit_correct d x : normal d -> digit x ->
  normal (add_digit d x) /\ sval (add_digit d x) = sval d + s32 x.
Proof.
  intros N Hx. rewrite add_digit_is_add by (apply N || assumption).
  destruct (add_spec d [x]) as (A1 & A2 & A3).
  - apply N.
  - apply wf_1, Hx.
  - destruct N as [[Ne _] _]. destruct d; [tauto|]. cbn [length]. lia.
  - rewrite sval_1 in A2. split; [|exact A2]. apply A3; auto using normal_1.
Qed.

Theorem sub_digit_correct d x : normal d -> digit x ->
  normal (sub_digit d x) /\ sval (sub_digit d x) = sval d - s32 x.
Proof.
  intros N Hx. unfold sub_digit. destruct (Z.eqb_spec x neg_flag) as [E|E]; cbn [negb].
  - destruct (incr_correct d N) as [N1 V1].
    destruct (add_digit_correct (incr d) (cpl neg_flag) N1) as [N2 V2]; [ub; lia|].
    split; [exact N2|]. rewrite V2, V1. clear - E. ub. subst.
    destruct (Z.ltb_spec (4294967296 - 1 - 2147483648) 2147483648), (Z.ltb_spec 2147483648 2147483648); lia.
  - destruct (add_digit_correct d (w32 (- x)) N) as [N2 V2]; [apply digit_w32|].
    split; [exact N2|]. rewrite V2. clear - E Hx. ub.
    destruct (Z.ltb_spec ((-x) mod 4294967296) 2147483648), (Z.ltb_spec x 2147483648); lia.
Qed.

(** Subtraction *)
Lemma sign_cpl x : digit x -> (neg_flag <=? cpl x) = negb (neg_flag <=? x).
Proof. intros. ub. destruct (Z.leb_spec 2147483648 x), (Z.leb_spec 2147483648 (4294967296-1-x)); cbn; try reflexivity; lia. Qed.

Lemma sub_high_add lo t xl c : Forall digit t -> digit xl ->
  sub_high lo t xl c = add_high lo t (cpl xl) c.
Proof.
  intros Ft Hx. destruct t as [|y r]; [reflexivity|].
  inversion Ft as [|? ? Hy Fr]; subst. destruct r as [|z r]; cbn [sub_high add_high].
  - rewrite !lxor_sign, !lxor_sign', sign_cpl by auto using digit_w32, digit_cpl.
    generalize (w32 (y + w32 (cpl xl + c))). intros y'.
    destruct (neg_flag <=? y), (neg_flag <=? xl); cbn [xorb negb];
    destruct (neg_flag <=? y'); reflexivity.
  - assert (E : (cpl xl <? neg_flag) = (neg_flag <=? xl)).
    { ub. destruct (Z.ltb_spec (4294967296-1-xl) 2147483648), (Z.leb_spec 2147483648 xl); try reflexivity; lia. }
    rewrite E. reflexivity.
Qed.

Lemma sub_spec d x : wf d -> wf x -> (length x <= length d)%nat ->
  wf (sub d x) /\ sval (sub d x) = sval d - sval x /\
  ((length x = length d -> normal x) -> (length x < length d -> normal d)%nat ->
   normal (sub d x)).
Proof.
  intros Wd Wx L. unfold sub.
  pose proof (add_gen d (map cpl x) 1 Wd (wf_cpl _ Wx)) as H.
  rewrite map_length in H. specialize (H L (or_intror eq_refl)).
  destruct (add_low d (map cpl x) 1) as [[[lo t] xl] cf] eqn:E.
  destruct (add_low_spec (map cpl x) d 1 lo t xl cf) as (pre & xs & P1 & P2 & P3 & P4 & P5 & P6 & P7 & P8); auto.
  { apply wf_cpl, Wx. } { rewrite map_length; exact L. } { apply Wd. } { apply wf_cpl, Wx. }
  assert (Ft : Forall digit t).
  { destruct Wd as [_ F]. subst d. apply Forall_app in F. apply F. }
  assert (Hxl : digit xl).
  { pose proof (proj2 (wf_cpl _ Wx)) as F. rewrite P2 in F. apply Forall_app in F as [_ F]. inversion F; auto. }
  rewrite sub_high_add, cpl_cpl by auto using digit_cpl.
  destruct H as (H1 & H2 & H3). rewrite sval_cpl in H2 by assumption.
  split; [apply H1|split; [lia|]]. intros; apply H3; auto using normal_cpl.
Qed.

Theorem sub_assign_correct d x : normal d -> normal x ->
  normal (sub_assign d x) /\ sval (sub_assign d x) = sval d - sval x.
Proof.
  intros Nd Nx. unfold sub_assign. destruct (Nat.ltb_spec (length d) (length x)) as [L|L].
  - destruct (sign_extend_spec d (length x)) as (S1 & S2 & S3); [apply Nd|lia|].
    destruct (sub_spec (sign_extend d (length x)) x) as (A1 & A2 & A3);
      [assumption|apply Nx|lia|].
    rewrite S2 in A2. split; [|exact A2]. apply A3; [auto|lia].
  - destruct (sub_spec d x) as (A1 & A2 & A3); [apply Nd|apply Nx|lia|].
    split; [|exact A2]. apply A3; auto.
Qed.

(** Negation and complement *)
Lemma compl_neg_digits_2 x y t ng : compl_neg_digits (x :: y :: t) ng =
  (let '(t', n') := compl_neg_digits (y :: t) (ng && (w32 (cpl x + b2z ng) =? 0)) in
   (w32 (cpl x + b2z ng) :: t', n')).
Proof. reflexivity. Qed.
Lemma compl_neg_digits_spec s : forall ng s' n', wf s -> compl_neg_digits s ng = (s', n') ->
  wf s' /\ length s' = length s /\
  exists a b lo, s = lo ++ [a] /\ s' = firstn (length lo) s' ++ [b] /\
    uval (firstn (length lo) s') + Bp (length lo) * b2z n' = Bp (length lo) - 1 - uval lo + b2z ng
    /\ b = w32 (cpl a + b2z n').
Proof.
  induction s as [|x t IH]; intros ng s' n' W E; [destruct W; tauto|].
  destruct t as [|y t].
  - cbn [compl_neg_digits] in E. injection E as <- <-.
    split; [apply wf_1, digit_w32|]. split; [reflexivity|].
    exists x, (w32 (cpl x + b2z ng)), []. cbn [length firstn app uval]. rewrite Bp_0.
      split; [reflexivity|]. split; [reflexivity|]. split; [destruct ng; cbn [b2z]; lia|reflexivity].
  - apply wf_cons_inv in W as [Hx W]. rewrite compl_neg_digits_2 in E.
    destruct (compl_neg_digits (y :: t) (ng && (w32 (cpl x + b2z ng) =? 0))) as [t' n''] eqn:E'.
    injection E as <- <-.
    destruct (IH _ _ _ W E') as (I1 & I2 & a & b & lo & I4 & I5 & I6 & I7).
    assert (HW : wf (w32 (cpl x + b2z ng) :: t')) by (apply wf_cons; auto using digit_w32).
    split; [exact HW|]. split; [cbn [length]; rewrite I2; reflexivity|].
    assert (EC : w32 (cpl x + b2z ng) + B * b2z (ng && (w32 (cpl x + b2z ng) =? 0)) = cpl x + b2z ng).
    { clear - Hx. destruct (Z.eqb_spec (w32 (cpl x + b2z ng)) 0), ng; cbn [andb]; ub; lia. }
    exists a, b, (x :: lo). cbn [length firstn app].
    split; [rewrite I4; reflexivity|]. split; [rewrite <- I5; reflexivity|].
    split; [|exact I7]. rewrite !uval_cons, Bp_S. unfold cpl in *. nia.
Qed.

Lemma compl_neg_spec pre s ng : Forall digit pre -> wf s ->
  normal (compl_neg pre s ng) /\
  sval (compl_neg pre s ng) = uval pre + Bp (length pre) * (- 1 - sval s + b2z ng).
Proof.
  intros Fp W. unfold compl_neg.
  destruct (compl_neg_digits s ng) as [s' n'] eqn:E.
  destruct (compl_neg_digits_spec _ _ _ _ W E) as (I1 & I2 & a & b & lo & I4 & I5 & I6 & I7).
  assert (Dl : Forall digit (firstn (length lo) s')).
  { pose proof (proj2 I1) as F. rewrite I5 in F. apply Forall_app in F. apply F. }
  remember (firstn (length lo) s') as lo' eqn:El.
  assert (Ll : length lo' = length lo).
  { rewrite I5 in I2. rewrite app_length in I2. rewrite I4, app_length in I2. cbn [length] in I2. lia. }
  assert (Hb : digit b) by (subst b; apply digit_w32).
  assert (Da : digit a /\ Forall digit lo).
  { destruct W as [_ F]. rewrite I4 in F. apply Forall_app in F as [F1 F2]. inversion F2; auto. }
  destruct Da as [Ha Flo].
  assert (Vs : sval s = uval lo + Bp (length lo) * s32 a) by (rewrite I4; apply sval_snoc).
  assert (Vs' : sval s' = uval lo' + Bp (length lo) * s32 b) by (rewrite I5, sval_snoc, Ll; reflexivity).
  assert (Bs : back s' = b) by (rewrite I5; unfold back; apply last_snoc).
  rewrite Bs.
  destruct n'; cbn [andb b2z] in *.
  - destruct (Z.eqb_spec b neg_flag) as [Eb|Eb].
    + split.
      * rewrite I5. rewrite <- !app_assoc. cbn [app]. rewrite app_assoc.
        apply normal_top2; [apply Forall_app; auto | auto | ub; lia |].
        unfold redundant. ub. lia.
      * rewrite sval_app by (destruct s'; discriminate). f_equal. f_equal.
        rewrite I5, <- app_assoc, sval_app by discriminate. cbn [app].
        rewrite sval_cons2, sval_1. rewrite Vs, Ll.
        assert (s32 a = - neg_flag /\ s32 0 = 0) as [-> ->].
        { clear - I7 Eb Ha. ub. destruct (Z.ltb_spec a 2147483648), (Z.ltb_spec 0 2147483648); lia. }
        rewrite Eb. destruct ng; unfold b2z in *; nia.
    + assert (Wall : wf (pre ++ s')) by (apply wf_app; auto).
      destruct (shrink_spec _ Wall) as [S1 S2]. split; [exact S1|].
      rewrite S2, sval_app by apply I1. f_equal. f_equal. rewrite Vs, Vs'.
      assert (s32 b = - s32 a) as ->.
      { clear - I7 Eb Ha. ub. destruct (Z.ltb_spec a 2147483648), (Z.ltb_spec b 2147483648); lia. }
      nia.
  - assert (Wall : wf (pre ++ s')) by (apply wf_app; auto).
    destruct (shrink_spec _ Wall) as [S1 S2]. split; [exact S1|].
    rewrite S2, sval_app by apply I1. f_equal. f_equal. rewrite Vs, Vs'.
    assert (s32 b = - 1 - s32 a) as ->.
    { clear - I7 Ha. ub. destruct (Z.ltb_spec a 2147483648), (Z.ltb_spec b 2147483648); lia. }
    nia.
Qed.

Theorem negate_correct d : normal d -> normal (negate d) /\ sval (negate d) = - sval d.
Proof.
  intros N. destruct (compl_neg_spec [] d true) as [H1 H2]; auto; [apply N|].
  split; [exact H1|]. unfold negate. rewrite H2. cbn [uval length b2z]. rewrite Bp_0. lia.
Qed.

Theorem complement_correct d : normal d -> normal (complement d) /\ sval (complement d) = - sval d - 1.
Proof.
  intros N. destruct (compl_neg_spec [] d false) as [H1 H2]; auto; [apply N|].
  split; [exact H1|]. unfold complement. rewrite H2. cbn [uval length b2z]. rewrite Bp_0. lia.
Qed.
