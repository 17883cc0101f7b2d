(** Reverse subtraction (sub_from) and the operators built on it. *)

From Coq Require Import ZArith List Bool Lia.
From Verif Require Import BigIntModel BigIntSpec BigIntBase BigIntAdd.
Import ListNotations.
Open Scope Z_scope.

Ltac Zify.zify_post_hook ::= Z.div_mod_to_equations.

Lemma sub_from_low_2 d x y t c : sub_from_low d (x :: y :: t) c =
  match d with
  | [] => ([], [], 0, c)
  | di :: d' =>
      let '(z, c') := dstep x (cpl di) c in
      let '(lo, u, xl, cf) := sub_from_low d' (y :: t) c' in (z :: lo, u, xl, cf)
  end.
Proof. destruct d; reflexivity. Qed.
Lemma sub_from_low_1 d x c : sub_from_low d [x] c = ([], d, x, c).
Proof. destruct d; reflexivity. Qed.

Lemma sub_from_low_spec x : forall d c lo t xl cf,
  x <> [] -> (length x <= length d)%nat -> Forall digit d -> Forall digit x ->
  (c = 0 \/ c = 1) -> sub_from_low d x c = (lo, t, xl, cf) ->
  exists pre xs, d = pre ++ t /\ x = xs ++ [xl] /\ length pre = length lo /\
    length xs = length lo /\ Forall digit lo /\ (cf = 0 \/ cf = 1) /\ t <> [] /\
    uval lo + Bp (length lo) * cf = uval xs + (Bp (length lo) - 1 - uval pre) + c.
Proof.
  induction x as [|xi x IH]; intros d c lo t xl cf Ne L Fd Fx Hc E; [tauto|].
  destruct x as [|xj x].
  - rewrite sub_from_low_1 in E. injection E as <- <- <- <-.
    exists [], []. destruct d; [cbn in L; lia|].
    repeat split; auto; try discriminate. cbn [uval length]. rewrite Bp_0. lia.
  - destruct d as [|di d]; [cbn in L; lia|].
    rewrite sub_from_low_2 in E. inversion Fd as [|? ? Hd Fd']; subst. inversion Fx as [|? ? Hx Fx']; subst.
    destruct (dstep_spec xi (cpl di) c Hx (digit_cpl _ Hd) Hc) as (D1 & D2 & D3).
    destruct (dstep xi (cpl di) c) as [y c']. cbn [fst snd] in D1, D2, D3.
    destruct (sub_from_low d (xj :: x) c') as [[[lo' t'] xl'] cf'] eqn:E'.
    injection E as <- -> -> ->.
    cbn [length] in L.
    destruct (IH d c' lo' t xl cf) as (pre & xs & P1 & P2 & P3 & P4 & P5 & P6 & P7 & P8);
      auto; [discriminate | cbn [length]; lia |].
    exists (di :: pre), (xi :: xs). rewrite P1, P2. cbn [length app].
    repeat split; auto.
    rewrite !uval_cons, Bp_S. unfold cpl in *. nia.
Qed.

(** The second half, under the condition that excludes the wrong borrow
    propagation: a negative x shorter by at least two digits. *)
Lemma sub_from_high_spec pre lo t xs xl c cf :
  length pre = length lo -> length xs = length lo ->
  Forall digit pre -> Forall digit xs -> Forall digit lo -> wf t -> digit xl ->
  (c = 0 \/ c = 1) -> (cf = 0 \/ cf = 1) ->
  uval lo + Bp (length lo) * cf = uval xs + (Bp (length lo) - 1 - uval pre) + c ->
  (length t = 1%nat -> normal (xs ++ [xl])) ->
  (neg_flag <= xl -> (length t <= 2)%nat) ->
  normal (sub_from_high lo t xl cf) /\
  sval (sub_from_high lo t xl cf) = uval lo + Bp (length lo) * (s32 xl - 1 - sval t + cf).
Proof.
  intros L1 L2 Fp Fs Fl Wt Hx Hc Hcf V N1 Hlen.
  pose proof (uval_bound lo Fl) as Bl. pose proof (uval_bound pre Fp) as Bpre.
  pose proof (uval_bound xs Fs) as Bxs. pose proof (Bp_pos (length lo)) as Pp.
  rewrite L1 in Bpre. rewrite L2 in Bxs.
  destruct t as [|y r]; [destruct Wt; tauto|].
  destruct r as [|z r].
  - clear Hlen. specialize (N1 eq_refl).
    assert (Hy : digit y) by (destruct Wt as [_ F]; inversion F; auto).
    rewrite sval_1. cbn [sub_from_high].
    rewrite lxor_sign' by assumption.
    remember (w32 (w32 (xl + cpl y) + cf)) as y' eqn:Ey.
    assert (Hy' : digit y') by (subst; apply digit_w32).
    rewrite lxor_sign by assumption.
    assert (NR : forall v, sval (lo ++ [y']) = v ->
        (length lo = 0%nat \/ ~ rng (length lo) v) -> normal (lo ++ [y'])).
    { intros v <- C. apply normal_iff; [apply wf_snoc; auto|].
      rewrite app_length. cbn [length].
      replace (length lo + 1 - 1)%nat with (length lo) by lia.
      destruct C as [C|C]; [left; lia | right; exact C]. }
    assert (N1' : length lo = 0%nat \/ ~ rng (length lo) (sval (xs ++ [xl]))).
    { apply normal_iff in N1; [|apply wf_snoc; auto].
      rewrite app_length in N1. cbn [length] in N1.
      replace (length xs + 1 - 1)%nat with (length lo) in N1 by lia.
      destruct N1 as [N1|N1]; [left; lia | right; exact N1]. }
    unfold rng in N1'. rewrite sval_snoc, L2 in N1'.
    assert (Vn : sval (lo ++ [y']) = uval lo + Bp (length lo) * s32 y') by apply sval_snoc.
    destruct (Z.leb_spec neg_flag y) as [Cy|Cy], (Z.leb_spec neg_flag xl) as [Cx|Cx]; cbn [xorb negb].
    + destruct (shrink_spec (lo ++ [y'])) as [S1 S2]; [apply wf_snoc; auto|].
      split; [exact S1|]. rewrite S2, Vn. f_equal. f_equal. clear - Ey Hy Hx Cy Cx Hcf. ub.
      destruct (Z.ltb_spec y' 2147483648), (Z.ltb_spec xl 2147483648), (Z.ltb_spec y 2147483648); lia.
    + destruct (Z.leb_spec neg_flag y') as [Cz|Cz]; cbn [xorb].
      * split; [apply normal_top2; auto; [ub; lia|]; unfold redundant; clear - Cz; ub; lia|].
        rewrite sval_app, sval_cons2, sval_1 by discriminate. f_equal. f_equal.
        clear - Ey Hy Hx Cy Cx Hcf Cz. ub.
        destruct (Z.ltb_spec y 2147483648), (Z.ltb_spec xl 2147483648), (Z.ltb_spec 0 2147483648); lia.
      * assert (Vv : s32 y' = s32 xl - 1 - s32 y + cf).
        { clear - Ey Hy Hx Cy Cx Hcf Cz. ub.
          destruct (Z.ltb_spec y 2147483648), (Z.ltb_spec xl 2147483648), (Z.ltb_spec y' 2147483648); lia. }
        rewrite Vv in Vn. split; [|exact Vn]. eapply NR; [exact Vn|].
        destruct N1' as [N1'|N1']; [left; exact N1'|right]. unfold rng. clear NR.
        clear Vn Vv Ey. ub.
        destruct (Z.ltb_spec y 2147483648), (Z.ltb_spec xl 2147483648); first [lia|nia].
    + destruct (Z.leb_spec neg_flag y') as [Cz|Cz]; cbn [xorb].
      * assert (Vv : s32 y' = s32 xl - 1 - s32 y + cf).
        { clear - Ey Hy Hx Cy Cx Hcf Cz. ub.
          destruct (Z.ltb_spec y 2147483648), (Z.ltb_spec xl 2147483648), (Z.ltb_spec y' 2147483648); lia. }
        rewrite Vv in Vn. split; [|exact Vn]. eapply NR; [exact Vn|].
        destruct N1' as [N1'|N1']; [left; exact N1'|right]. unfold rng. clear NR.
        clear Vn Vv Ey. ub.
        destruct (Z.ltb_spec y 2147483648), (Z.ltb_spec xl 2147483648); first [lia|nia].
      * split; [apply normal_top2; auto; [ub; lia|]; unfold redundant; clear - Cz; ub; lia|].
        rewrite sval_app, sval_cons2, sval_1 by discriminate. f_equal. f_equal.
        clear - Ey Hy Hx Cy Cx Hcf Cz. ub.
        destruct (Z.ltb_spec y 2147483648), (Z.ltb_spec xl 2147483648), (Z.ltb_spec (4294967296-1) 2147483648); lia.
    + destruct (shrink_spec (lo ++ [y'])) as [S1 S2]; [apply wf_snoc; auto|].
      split; [exact S1|]. rewrite S2, Vn. f_equal. f_equal. clear - Ey Hy Hx Cy Cx Hcf. ub.
      destruct (Z.ltb_spec y' 2147483648), (Z.ltb_spec xl 2147483648), (Z.ltb_spec y 2147483648); lia.
  - clear N1. apply wf_cons_inv in Wt as [Hy Wr]. cbn [sub_from_high].
    remember (w32 (xl + cf)) as s eqn:Es.
    remember (w32 (cpl y + s)) as y' eqn:Ey.
    assert (Hy' : digit y') by (subst; apply digit_w32).
    rewrite sval_cons2.
    destruct (Z.ltb_spec xl neg_flag) as [Cx|Cx].
    + destruct (compl_neg_spec (lo ++ [y']) (z :: r) (y' <? s)) as [C1 C2]; auto.
      { apply Forall_app; auto. }
      split; [exact C1|]. rewrite C2, uval_app, app_length. cbn [length uval]. rewrite Bp_add, Bp_1.
      assert (Q : y' + B * b2z (y' <? s) = s32 xl + cpl y + cf).
      { clear - Es Ey Cx Hy Hx Hcf. destruct (Z.ltb_spec y' s); ub; destruct (Z.ltb_spec xl 2147483648); lia. }
      unfold cpl in Q. nia.
    + destruct (Z.eqb_spec s 0) as [C0|C0].
      * destruct (compl_neg_spec lo (y :: z :: r) false) as [C1 C2]; auto.
        { apply wf_cons; auto. }
        split; [exact C1|]. rewrite C2, sval_cons2. cbn [b2z].
        assert (s32 xl + cf = 0).
        { clear - Es C0 Cx Hx Hcf. ub. destruct (Z.ltb_spec xl 2147483648); lia. }
        nia.
      * specialize (Hlen Cx). cbn [length] in Hlen. destruct r; [|cbn in Hlen; lia].
        assert (Hz : digit z) by (destruct Wr as [_ F]; inversion F; auto).
        cbn [compl_borrow]. unfold back. cbn [last app].
        remember (w32 (cpl z - b2z (s <=? y'))) as z' eqn:Ez.
        assert (Hz' : digit z') by (subst; apply digit_w32).
        assert (Q : y' - B * b2z (s <=? y') = s32 xl + cpl y + cf).
        { clear - Es Ey Cx C0 Hy Hx Hcf. destruct (Z.leb_spec s y'); ub; destruct (Z.ltb_spec xl 2147483648); lia. }
        rewrite sval_1.
        destruct (Z.eqb_spec z' (cpl neg_flag)) as [E1|E1];
          [destruct (s <=? y') eqn:Eb; cbn [andb]|rewrite andb_false_r].
        -- split.
           ++ change (y' :: [z'; B - 1]) with ([y'] ++ [z'; B-1]). rewrite app_assoc.
              apply normal_top2; [apply Forall_app; auto|auto|ub; lia|]. unfold redundant. rewrite E1. ub. lia.
           ++ rewrite sval_app, !sval_cons2, sval_1 by discriminate. f_equal. f_equal.
              assert (z' + B * s32 (B - 1) = -1 - s32 z - 1).
              { clear - Ez E1 Hz. ub. destruct (Z.ltb_spec (4294967296-1) 2147483648), (Z.ltb_spec z 2147483648); lia. }
              cbn [b2z] in Q. unfold cpl in Q. lia.
        -- destruct (shrink_spec (lo ++ [y'; z'])) as [S1 S2].
           { apply wf_app; auto; apply wf_cons; auto; apply wf_1; auto. }
           split; [exact S1|]. rewrite S2, sval_app, sval_cons2, sval_1 by discriminate. f_equal. f_equal.
           assert (s32 z' = -1 - s32 z).
           { clear - Ez Hz. ub. destruct (Z.ltb_spec z' 2147483648), (Z.ltb_spec z 2147483648); lia. }
           cbn [b2z] in Q. unfold cpl in Q. lia.
        -- destruct (shrink_spec (lo ++ [y'; z'])) as [S1 S2].
           { apply wf_app; auto; apply wf_cons; auto; apply wf_1; auto. }
           split; [exact S1|]. rewrite S2, sval_app, sval_cons2, sval_1 by discriminate. f_equal. f_equal.
           assert (s32 z' = -1 - s32 z - b2z (s <=? y')).
           { clear - Ez Hz E1. destruct (s <=? y'); ub; destruct (Z.ltb_spec z' 2147483648), (Z.ltb_spec z 2147483648); lia. }
           unfold cpl in Q. lia.
Qed.

Lemma sub_from_spec d x : wf d -> wf x -> (length x <= length d)%nat ->
  (length x = length d -> normal x) ->
  (sval x < 0 -> (length d <= length x + 1)%nat) ->
  normal (sub_from d x) /\ sval (sub_from d x) = sval x - sval d.
Proof.
  intros [Nd Fd] Wx L H1 H2. unfold sub_from. pose proof Wx as [Nx Fx].
  destruct (sub_from_low d x 1) as [[[lo t] xl] cf] eqn:E.
  destruct (sub_from_low_spec x d 1 lo t xl cf Nx L Fd Fx (or_intror eq_refl) E)
    as (pre & xs & P1 & P2 & P3 & P4 & P5 & P6 & P7 & P8).
  pose proof (back_sign x Wx) as Sx. rewrite P2 in Sx.
  unfold is_negative, back in Sx. rewrite last_snoc in Sx. rewrite <- P2 in Sx.
  subst d. apply Forall_app in Fd as [Fp Ft]. rewrite P2 in Fx. apply Forall_app in Fx as [Fs Fxl].
  inversion Fxl as [|? ? Hxl _]; subst.
  destruct (sub_from_high_spec pre lo t xs xl 1 cf) as [R1 R2]; auto.
  - split; assumption.
  - intros Lt. apply H1. rewrite !app_length. cbn [length]. lia.
  - intros C. rewrite !app_length in H2. cbn [length] in H2.
    destruct (Z.leb_spec neg_flag xl); [|lia].
    symmetry in Sx. apply Z.ltb_lt in Sx. specialize (H2 Sx). lia.
  - split; [exact R1|]. rewrite R2, sval_snoc, sval_app by assumption.
    rewrite P3, P4. nia.
Qed.

(** subtract_from and friends, on the domain where they are right. *)
Theorem subtract_from_correct_partial d x : normal d -> normal x ->
  (0 <= sval x \/ (length d <= length x + 1)%nat) ->
  normal (subtract_from d x) /\ sval (subtract_from d x) = sval x - sval d.
Proof.
  intros Nd Nx C. unfold subtract_from. destruct (Nat.ltb_spec (length d) (length x)) as [L|L].
  - destruct (sign_extend_spec d (length x)) as (S1 & S2 & S3); [apply Nd|lia|].
    rewrite <- S2. apply sub_from_spec; auto; [apply Nx|lia|lia].
  - apply sub_from_spec; auto; [apply Nd|apply Nx|lia].
Qed.

Theorem subtract_from_move_correct_partial d x : normal d -> normal x ->
  (0 <= sval x \/ (length d <= length x + 1)%nat) ->
  normal (subtract_from_move d x) /\ sval (subtract_from_move d x) = sval x - sval d.
Proof.
  intros Nd Nx C. unfold subtract_from_move. destruct (Nat.leb_spec (length x) (length d)) as [L|L].
  - apply sub_from_spec; auto; [apply Nd|apply Nx|lia].
  - destruct (sub_spec x d) as (A1 & A2 & A3); [apply Nx|apply Nd|lia|].
    split; [|exact A2]. apply A3; auto.
Qed.

Theorem sub_assign_move_correct_partial d x : normal d -> normal x ->
  (0 <= sval d \/ (length x <= length d + 1)%nat) ->
  normal (sub_assign_move d x) /\ sval (sub_assign_move d x) = sval d - sval x.
Proof.
  intros Nd Nx C. unfold sub_assign_move. destruct (Nat.leb_spec (length x) (length d)) as [L|L].
  - destruct (sub_spec d x) as (A1 & A2 & A3); [apply Nd|apply Nx|lia|].
    split; [|exact A2]. apply A3; auto.
  - apply sub_from_spec; auto; [apply Nx|apply Nd|lia|lia].
Qed.
