(** reduce_mod as a whole. *)

From Coq Require Import ZArith List Bool Lia.
From Verif Require Import BigIntModel BigIntSpec BigIntBase BigIntAdd BigIntMul BigIntDiv.
Import ListNotations.
Open Scope Z_scope.

Ltac Zify.zify_post_hook ::= Z.div_mod_to_equations.

Lemma top_split (d : list Z) n : (n <= length d)%nat -> exists a b, d = a ++ b /\ length b = n /\ skipn (length d - n) d = b.
Proof.
  intros L. exists (firstn (length d - n) d), (skipn (length d - n) d).
  rewrite firstn_skipn, skipn_length. repeat split. lia.
Qed.

Lemma last_app_2 (a : list Z) y x : nth (length (a ++ [y; x]) - 1) (a ++ [y; x]) 0 = x /\
  nth (length (a ++ [y; x]) - 2) (a ++ [y; x]) 0 = y.
Proof.
  rewrite app_length. cbn [length]. rewrite !app_nth2 by lia.
  replace (length a + 2 - 1 - length a)%nat with 1%nat by lia.
  replace (length a + 2 - 2 - length a)%nat with 0%nat by lia. auto.
Qed.

Definition div_work (div : list Z) : list Z :=
  let n := length div in
  let shift := 32 - lastbit32 (back div) in
  let work0 := skipn (n - (if (shift =? 0) || Nat.eqb n 2 then 2 else 3)) div in
  if 0 <? shift then lsl work0 shift else work0.

Lemma estimate_div div : (2 <= length div)%nat -> Forall digit div -> 0 < back div ->
  let w := div_work div in
  estimate_ok div (32 - lastbit32 (back div)) (nth (length w - 1) w 0) (nth (length w - 2) w 0).
Proof.
  intros L2 Fd Pt. cbv zeta. unfold div_work. set (n := length div) in *.
  destruct (top_split div 2 L2) as (a & b & Ed & Lb & Sb). fold n in Sb.
  destruct b as [|y [|x [|? ?]]]; try discriminate. clear Lb.
  assert (Fs : Forall digit a /\ digit y /\ digit x).
  { rewrite Ed in Fd. apply Forall_app in Fd as [F1 F2]. inversion F2 as [|? ? ? F3]; inversion F3; subst; auto. }
  destruct Fs as (Fa & Hy & Hx).
  assert (Eb : back div = x).
  { unfold back. rewrite Ed. replace (a ++ [y; x]) with ((a ++ [y]) ++ [x]) by (rewrite <- app_assoc; reflexivity). apply last_snoc. }
  rewrite Eb in *. destruct (lastbit32_spec x Hx Pt) as (S1 & S2 & S3).
  set (s := 32 - lastbit32 x) in *.
  assert (La : length a = (n - 2)%nat) by (subst n; rewrite Ed, app_length; cbn; lia).
  pose proof (uval_bound a Fa) as Ba. pose proof (Bp_pos (length a)) as Pa.
  assert (UV : uval div = (x * B + y) * Bp (length a) + uval a).
  { rewrite Ed, uval_app, !uval_cons. cbn [uval]. lia. }
  assert (Hlead : forall lead sub, digit lead -> digit sub -> B <= 2 * lead ->
    (lead * B + sub) * Bp (length a) <= uval div * 2 ^ s < (lead * B + sub + 1) * Bp (length a) ->
    estimate_ok div s lead sub).
  { intros lead sub D1 D2 D3 D4. apply estimate_gen; auto. - rewrite Eb. exact S3. - fold n. rewrite <- La. exact D4. }
  destruct (Z.eqb_spec s 0) as [E0|E0]; cbn [orb].
  - rewrite E0 in *. rewrite Sb. change (0 <? 0) with false. cbv iota. cbn [length Nat.sub nth].
    rewrite Z.pow_0_r, Z.mul_1_r in *. apply Hlead; auto. rewrite UV. lia.
  - destruct (Z.ltb_spec 0 s) as [Ps|Ps]; [|lia].
    destruct (Nat.eqb_spec n 2) as [En|En].
    + rewrite Sb. unfold lsl. cbn [lsl_digits length Nat.sub nth].
      destruct (lsl_pair 0 y x s ltac:(lia) ltac:(ub; lia) Hy Hx S3 _ _ eq_refl eq_refl) as (L1 & L3 & L4 & L5).
      apply Hlead; auto; [lia|]. rewrite L4, UV.
      rewrite Z.div_0_l by (apply Z.pow_nonzero; lia).
      assert (length a = 0%nat) by lia. destruct a; [|discriminate]. cbn [length uval]. rewrite Bp_0. lia.
    + destruct (top_split div 3 ltac:(fold n; lia)) as (a' & b' & Ed' & Lb' & Sb'). fold n in Sb'.
      rewrite Sb'. destruct b' as [|t [|y' [|x' [|? ?]]]]; try discriminate. clear Lb'.
      assert (Q : a = a' ++ [t] /\ y' = y /\ x' = x).
      { rewrite Ed in Ed'. replace (a' ++ [t; y'; x']) with ((a' ++ [t]) ++ [y'; x']) in Ed' by (rewrite <- app_assoc; reflexivity).
        replace (a ++ [y; x]) with ((a ++ [y]) ++ [x]) in Ed' by (rewrite <- app_assoc; reflexivity).
        replace ((a' ++ [t]) ++ [y'; x']) with (((a' ++ [t]) ++ [y']) ++ [x']) in Ed' by (rewrite <- !app_assoc; reflexivity).
        apply app_inj_tail in Ed' as [Ed' ->]. apply app_inj_tail in Ed' as [-> ->]. auto. }
      destruct Q as (Ea & -> & ->).
      assert (Fa' : Forall digit a' /\ digit t).
      { rewrite Ea in Fa. apply Forall_app in Fa as [F1 F2]. inversion F2; auto. }
      destruct Fa' as [Fa' Ht].
      unfold lsl. cbn [lsl_digits length Nat.sub nth].
      destruct (lsl_pair t y x s ltac:(lia) Ht Hy Hx S3 _ _ eq_refl eq_refl) as (L1 & L3 & L4 & L5).
      apply Hlead; auto; [lia|]. rewrite L4, UV.
      pose proof (shift_window (x * B + y) t (Bp (length a')) (uval a') s ltac:(lia) (Bp_pos _) (uval_bound a' Fa') Ht) as SW.
      assert (Lx : length a = S (length a')) by (rewrite Ea, app_length; cbn; lia).
      rewrite Lx, Bp_S. rewrite Ea, uval_app. cbn [uval].
      assert (H0 : 0 <= x * B + y) by (clear - Hx Hy; ub; lia). specialize (SW H0). lia.
Qed.

Lemma add_fixed_spec w : forall x c, Forall digit w -> Forall digit x -> length x = length w ->
  (c = 0 \/ c = 1) ->
  Forall digit (add_fixed w x c) /\ length (add_fixed w x c) = length w /\
  exists k, uval (add_fixed w x c) + Bp (length w) * k = uval w + uval x + c.
Proof.
  induction w as [|a w IH]; intros x c Fw Fx L Hc.
  - destruct x; [|discriminate]. cbn [add_fixed]. repeat split; auto. exists c. cbn [uval length]. rewrite Bp_0. lia.
  - destruct x as [|b x]; [discriminate|]. cbn [add_fixed].
    inversion Fw as [|? ? Ha Fw']; inversion Fx as [|? ? Hb Fx']; subst. injection L as L.
    destruct (dstep_spec a b c Ha Hb Hc) as (D1 & D2 & D3).
    destruct (dstep a b c) as [y c']. cbn [fst snd] in *.
    destruct (IH x c' Fw' Fx' L D2) as (I1 & I2 & k & I3).
    split; [constructor; auto|]. split; [cbn [length]; lia|]. exists k. cbn [length].
    rewrite !uval_cons, Bp_S. lia.
Qed.

Lemma sval_mod d : exists k, sval d = uval d + Bp (length d) * k.
Proof.
  unfold sval. destruct (_ <=? _); [exists (-1)|exists 0]; [|lia].
    unfold Bp; rewrite ?pow32; lia.
Qed.

Lemma rval_sval w : wf w -> rval w (is_negative w) = sval w.
Proof.
  intros W. unfold rval, is_negative, back, sval. rewrite pow31. unfold Bp. rewrite pow32. reflexivity.
Qed.

Lemma sval_congr d v k : wf d -> uval d = v + Bp (length d) * k ->
  - Bp (length d) <= 2 * v < Bp (length d) -> sval d = v.
Proof.
  intros W E R. pose proof (sval_rng d W) as G. unfold rng in G. destruct (sval_mod d) as [j J].
  rewrite E in J. pose proof (Bp_pos (length d)). set (M := Bp (length d)) in *. clearbody M.
  assert (EQ : sval d = v + M * (k + j)) by lia.
  assert (k + j = 0); [|nia]. nia.
Qed.

Lemma Bp_half n : (0 < n)%nat -> exists h, Bp n = 2 * h.
Proof. destruct n; [lia|]. exists (neg_flag * Bp n). rewrite Bp_S. ub. lia. Qed.

Lemma long_division_spec d div neg_div : wf d -> (2 <= length div)%nat -> Forall digit div ->
  0 < back div -> (length div <= length d)%nat ->
  exists q r, long_division d div neg_div = (q, r) /\ normal q /\ normal r /\
  sval q = sval d / uval div /\
  sval r = if neg_div then - (sval d mod uval div) else sval d mod uval div.
Proof.
  intros W L2 Fd Pt Ld. unfold long_division. cbv zeta.
  pose proof (estimate_div div L2 Fd Pt) as EO. unfold div_work in EO. cbv zeta in EO.
  set (n := length div) in *. set (V := uval div) in *.
  set (ext := Nat.eqb (length d) n || _).
  set (d1 := if ext then sign_extend d (length d + 1) else d).
  assert (D1 : wf d1 /\ sval d1 = sval d /\ length d1 = (length d + (if ext then 1 else 0))%nat).
  { subst d1. destruct ext.
    - destruct (sign_extend_spec d (length d + 1)) as (S1 & S2 & S3); [exact W|lia|]. auto.
    - repeat split; try apply W. lia. }
  destruct D1 as (W1 & V1 & L1).
  set (k := (length d1 - n)%nat).
  assert (Lk : (0 < k)%nat).
  { subst k. rewrite L1. destruct ext eqn:Ee; [lia|]. subst ext. apply orb_false_iff in Ee as [Ee _].
    apply Nat.eqb_neq in Ee. lia. }
  set (lo := firstn k d1). set (w := skipn k d1).
  assert (Lw : length w = n) by (subst w k; rewrite skipn_length; rewrite L1 in *; destruct ext; lia).
  assert (Llo : length lo = k) by (subst lo k; rewrite firstn_length; lia).
  assert (Flo : Forall digit lo) by (apply Forall_firstn, W1).
  assert (Ww : wf w).
  { split; [|apply Forall_skipn, W1]. intros E. rewrite E in Lw. cbn in Lw. lia. }
  assert (SD : sval d = uval lo + Bp k * sval w).
  { rewrite <- V1. rewrite <- (firstn_skipn k d1) at 1. fold lo w. rewrite sval_app by apply Ww. rewrite Llo. reflexivity. }
  pose proof (uval_bound lo Flo) as Blo. rewrite Llo in Blo.
  pose proof (Bp_pos k) as Pk.
  assert (Dv : exists b z, div = b ++ [z] /\ Forall digit b /\ digit z /\ length b = (n - 1)%nat).
  { destruct (wf_snoc_inv div) as (b & z & E & F1 & F2).
    { split; [|exact Fd]. intros E; unfold n in L2; rewrite E in L2; cbn in L2; lia. }
    exists b, z. repeat split; auto; try apply F2. subst n. rewrite E, app_length. cbn. lia. }
  destruct Dv as (b & z & Ed & Fb & Hz & Lb).
  assert (Eb : back div = z) by (unfold back; rewrite Ed; apply last_snoc). rewrite Eb in *.
  pose proof (uval_bound b Fb) as Bb. rewrite Lb in Bb. pose proof (Bp_pos (n - 1)) as Pn.
  assert (EV : V = uval b + Bp (n - 1) * z) by (subst V; rewrite Ed, uval_app, Lb; cbn [uval]; lia).
  assert (PV : Bp (n - 1) <= V) by nia.
  (* the first window is small *)
  assert (Hw : - V <= 2 * sval w /\ 2 * sval w + 2 <= V).
  { destruct ext eqn:Ee.
    - pose proof (sval_rng d W) as R. unfold rng in R.
      assert (Q : length d = (k + (n - 1))%nat) by (subst k; lia).
      rewrite Q, Bp_add, SD in R. destruct (Bp_half (n - 1) ltac:(lia)) as [h Eh]. rewrite Eh in *.
      assert (h <= sval w + h + h \/ True) by (right; exact I).
      assert (A1 : sval w < h) by nia. assert (A2 : - h <= sval w) by nia. lia.
    - subst ext. apply orb_false_iff in Ee as [E1 E2].
      assert (Ed1 : d1 = d) by reflexivity.
      destruct (wf_snoc_inv w Ww) as (a & x & Ew & Fa & Hx).
      assert (La : length a = (n - 1)%nat) by (rewrite Ew, app_length in Lw; cbn in Lw; lia).
      pose proof (uval_bound a Fa) as Ba. rewrite La in Ba.
      assert (Sw : sval w = uval a + Bp (n - 1) * s32 x) by (rewrite Ew, sval_snoc, La; reflexivity).
      assert (Ebd : back d = x).
      { unfold back. rewrite <- Ed1, <- (firstn_skipn k d1). fold w. rewrite last_app_ne by apply Ww.
        rewrite Ew. apply last_snoc. }
      unfold is_negative in E2. rewrite Ebd, Eb in E2.
      assert (HQ : 2 * (z / 2) <= z) by lia.
      set (h := z / 2) in *. clearbody h.
      unfold s32 in Sw. unfold cpl in E2.
      destruct (Z.leb_spec neg_flag x) as [C|C].
      + apply Z.leb_gt in E2. destruct (Z.ltb_spec x neg_flag); [lia|].
        assert (A : - h <= x - B < 0) by (clear - E2 Hx; ub; lia).
        assert (Bp (n - 1) * (- h) <= Bp (n - 1) * (x - B)) by (apply Z.mul_le_mono_nonneg_l; lia).
        assert (Bp (n - 1) * (2 * h) <= Bp (n - 1) * z) by (apply Z.mul_le_mono_nonneg_l; lia).
        assert (Bp (n - 1) * (x - B) <= Bp (n - 1) * (-1)) by (apply Z.mul_le_mono_nonneg_l; lia).
        assert (2 <= V \/ True) by (right; exact I).
        pose proof (Bp_le 1 (n - 1) ltac:(lia)) as PB1. rewrite Bp_1 in PB1.
        assert (2 <= B) by (clear; ub; lia). lia.
      + apply Z.leb_gt in E2. destruct (Z.ltb_spec x neg_flag); [|lia].
        assert (0 <= x) by apply Hx.
        assert (0 <= Bp (n - 1) * x) by nia.
        assert (Bp (n - 1) * (2 * x + 2) <= Bp (n - 1) * (2 * h)) by (apply Z.mul_le_mono_nonneg_l; lia).
        assert (Bp (n - 1) * (2 * h) <= Bp (n - 1) * z) by (apply Z.mul_le_mono_nonneg_l; lia). lia. }
  assert (Bneg : is_negative d = is_negative w).
  { rewrite !back_sign by assumption. rewrite SD. apply Bool.eq_iff_eq_true. rewrite !Z.ltb_lt. nia. }
  rewrite Bneg.
  pose proof (div_loop_spec div _ _ _ EO L2 Fd (rev lo) w [] (is_negative w) (Forall_rev Flo) (proj2 Ww) ltac:(constructor) Lw) as LP.
  fold n in LP. rewrite rval_sval in LP by exact Ww.
  specialize (LP ltac:(lia) ltac:(rewrite back_sign by exact Ww; apply Z.ltb_lt)).
  match type of LP with context [div_loop ?a ?b ?c ?d ?e ?f ?g ?h] =>
    match goal with |- context [div_loop ?a' ?b' ?c' ?d' ?e' ?f' ?g' ?h'] =>
      change (div_loop a' b' c' d' e' f' g' h') with (div_loop a b c d e f g h) end;
    destruct (div_loop a b c d e f g h) as [[w1 qs1] b1] end.
  destruct LP as (P1 & P2 & P3 & P4 & P5 & P6 & Q & j & P7 & P8).
  rewrite rev_length, Llo in *. cbn [length uval] in *. rewrite Nat.add_0_r in *.
  rewrite rev_involutive in P7. fold V in P5, P7. rewrite Z.mul_0_r, Z.add_0_r in P8.
  set (res := if b1 then (add_fixed w1 div 0, decr_fixed qs1) else (w1, qs1)).
  assert (RES : exists Qf w2 qs2 i, res = (w2, qs2) /\ Forall digit w2 /\ length w2 = n /\
     Forall digit qs2 /\ length qs2 = k /\ uval qs2 = Qf + Bp k * i /\
     0 <= uval w2 < V /\ sval d = Qf * V + uval w2).
  { subst res. destruct b1.
    - destruct (decr_fixed_spec qs1 P3) as (J1 & J2 & i & J3).
      destruct (add_fixed_spec w1 div 0 P1 Fd ltac:(fold n; lia) (or_introl eq_refl)) as (A1 & A2 & c & A3).
      assert (RN : rval w1 true < 0) by (apply P6; reflexivity).
      unfold rval in *. rewrite P2 in *.
      pose proof (uval_bound _ A1) as BA. rewrite A2 in BA. pose proof (uval_bound div Fd) as BV. fold V n in BV, A3.
      pose proof (Bp_pos n) as Pnn. rewrite ?P2 in *.
      assert (c = 1) by nia. subst c.
      exists (Q - 1), (add_fixed w1 div 0), (decr_fixed qs1), (j + i).
      split; [reflexivity|]. split; [exact A1|]. split; [lia|]. split; [exact J1|]. split; [lia|].
      split; [rewrite J3, P8, P4; lia|]. split; [lia|]. rewrite SD. lia.
    - assert (RN : ~ rval w1 false < 0) by (rewrite <- P6; discriminate).
      unfold rval in *. exists Q, w1, qs1, j. repeat split; auto; try lia. }
  destruct RES as (Qf & w2 & qs2 & i & -> & F2 & Lw2 & Fq2 & Lq2 & Uq & Bw2 & SD2).
  assert (HQ : sval d / V = Qf /\ sval d mod V = uval w2).
  { split; symmetry; [apply (Z.div_unique_pos _ _ _ (uval w2))|apply (Z.mod_unique_pos _ _ Qf)]; lia. }
  destruct HQ as [HQ1 HQ2]. rewrite HQ1, HQ2.
  assert (Wq : wf qs2) by (split; [intros E; rewrite E in Lq2; cbn in Lq2; lia|exact Fq2]).
  assert (Sq : sval qs2 = Qf).
  { apply (sval_congr _ _ i Wq); rewrite Lq2; [exact Uq|].
    destruct (Bp_half k Lk) as [h Eh]. rewrite Eh in *.
    assert (H1 : sval d < h * V) by nia.
    assert (H2 : - (h * V) <= sval d) by nia.
    rewrite SD2 in H1, H2. nia. }
  destruct (shrink_spec qs2 Wq) as [N1 N2].
  set (r0 := if is_negative w2 then w2 ++ [0] else w2).
  assert (Ww2 : wf w2) by (split; [intros E; rewrite E in Lw2; cbn in Lw2; lia|exact F2]).
  assert (R0 : wf r0 /\ sval r0 = uval w2).
  { subst r0. rewrite back_sign by exact Ww2. destruct (Z.ltb_spec (sval w2) 0).
    - split; [apply wf_snoc; auto; ub; lia|]. rewrite sval_snoc. change (s32 0) with 0. lia.
    - split; [exact Ww2|]. apply nonneg_uval; assumption. }
  destruct R0 as [R1 R2].
  destruct (shrink_pos_spec r0 R1) as (T1 & T2 & T3 & T4).
  assert (N3 : normal (shrink_pos r0)) by (apply T3; lia).
  exists (shrink qs2), (if neg_div then negate (shrink_pos r0) else shrink_pos r0).
  split; [reflexivity|]. split; [exact N1|].
  rewrite N2, Sq. destruct neg_div.
  - destruct (negate_correct _ N3) as [M1 M2]. split; [exact M1|]. split; [reflexivity|]. rewrite M2, T2, R2. reflexivity.
  - split; [exact N3|]. split; [reflexivity|]. rewrite T2, R2. reflexivity.
Qed.

(** The one case in which reduce_mod is wrong: a positive number divided by a
    negative one of the same length, not larger in absolute value, whose leading
    digits pass the test for the easy case. *)
Definition bad_division (d v : list Z) : Prop :=
  0 < sval d /\ sval v < 0 /\ length d = length v /\ - sval v < sval d /\ last d 0 + last v 0 < 2 ^ 32.

Lemma easy_case_spec d v : normal d -> normal v -> easy_case d v = true ->
  (0 <= sval d -> sval v < 0 -> length d = length v -> sval d <= - sval v) ->
  sval v <> 0 /\ (if sval d <? 0 then (if 0 <? sval v then - sval d <= sval v else - sval d < - sval v) else
     if 0 <? sval v then sval d < sval v else sval d <= - sval v).
Proof.
  intros Nd Nv E Hex.
  pose proof (normal_wf _ Nd) as Wd. pose proof (normal_wf _ Nv) as Wv.
  pose proof (sval_rng d Wd) as Rd. pose proof (sval_rng v Wv) as Rv. unfold rng in *.
  unfold easy_case in E. apply andb_true_iff in E as [E1 E2]. apply Nat.leb_le in E1.
  apply orb_true_iff in E2. rewrite Nat.ltb_lt in E2.
  destruct (Nat.lt_ge_cases (length d) (length v)) as [L|L].
  - clear E2. pose proof (normal_long (length d) v Nv L (wf_len1 d Wd)) as R. unfold rng in R.
    destruct (Bp_half (length d) (wf_len1 d Wd)) as [h Eh]. rewrite Eh in *.
    pose proof (Bp_pos (length d)) as P. rewrite Eh in P.
    assert (C : sval v < - h \/ h <= sval v) by lia.
    split; [lia|]. destruct (Z.ltb_spec (sval d) 0), (Z.ltb_spec 0 (sval v)); lia.
  - destruct E2 as [E2|E2]; [lia|].
    assert (EL : length d = length v) by lia.
    destruct (wf_snoc_inv d Wd) as (a & x & Ed & Fa & Hx).
    destruct (wf_snoc_inv v Wv) as (b & y & Ev & Fb & Hy).
    assert (La : length a = length b) by (rewrite Ed, Ev, !app_length in EL; cbn in EL; lia).
    pose proof (uval_bound a Fa) as Ba. pose proof (uval_bound b Fb) as Bb. rewrite La in Ba.
    pose proof (Bp_pos (length b)) as P.
    assert (Sd : sval d = uval a + Bp (length b) * s32 x) by (rewrite Ed, sval_snoc, La; reflexivity).
    assert (Sv : sval v = uval b + Bp (length b) * s32 y) by (rewrite Ev, sval_snoc; reflexivity).
    unfold is_negative, back in E2. rewrite Ed, Ev, !last_snoc in E2.
    unfold s32 in *. unfold digit in Hx, Hy. rewrite pow32 in Hx, Hy. unfold w32 in E2.
    set (p := Bp (length b)) in *. clearbody p.
    set (ua := uval a) in *. set (ub := uval b) in *. clearbody ua ub.
    clear Rd Rv. clear Wd Wv Nd Nv Ed Ev Fa Fb.
    destruct (Z.leb_spec neg_flag x), (Z.leb_spec neg_flag y), (Z.ltb_spec x neg_flag), (Z.ltb_spec y neg_flag); try lia.
    + (* both negative *)
      assert (E3 : y < x) by (clear - Hx Hy E2 H H0; ub; lia).
      pose proof (Z.mul_le_mono_nonneg_l (y + 1) x p ltac:(lia) ltac:(lia)).
      pose proof (Z.mul_le_mono_nonneg_l y (B - 1) p ltac:(lia) ltac:(lia)).
      pose proof (Z.mul_le_mono_nonneg_l x (B - 1) p ltac:(lia) ltac:(lia)).
      split; [lia|]. destruct (Z.ltb_spec (sval d) 0), (Z.ltb_spec 0 (sval v)); lia.
    + (* d negative, v nonnegative *)
      assert (E3 : B - x < y) by (clear - Hx Hy E2 H H0; ub; lia).
      assert (p * (B - x) + p <= p * y) by nia. assert (p <= p * y) by nia. assert (p * x <= p * B - p) by nia.
      split; [lia|]. destruct (Z.ltb_spec (sval d) 0), (Z.ltb_spec 0 (sval v)); lia.
    + assert (p * y <= p * B - p) by nia. assert (0 <= p * x) by nia.
      assert (sval v < 0) by lia. assert (0 <= sval d) by lia.
      split; [lia|]. destruct (Z.ltb_spec (sval d) 0), (Z.ltb_spec 0 (sval v)); try lia.
    + assert (E3 : x < y) by (clear - Hx Hy E2 H H0; ub; lia).
      assert (p * x + p <= p * y) by nia. assert (0 <= p * x) by nia.
      split; [lia|]. destruct (Z.ltb_spec (sval d) 0), (Z.ltb_spec 0 (sval v)); lia.
Qed.

Lemma easy_case_bad d v : normal d -> normal v -> easy_case d v = true ->
  0 <= sval d -> sval v < 0 -> length d = length v -> - sval v < sval d -> bad_division d v.
Proof.
  intros Nd Nv E P1 P2 L C. unfold bad_division.
  split; [lia|]. split; [lia|]. split; [lia|]. split; [lia|].
  unfold easy_case in E. rewrite L in E.
  rewrite (back_sign d) in E by apply Nd. rewrite (back_sign v) in E by apply Nv.
  apply andb_true_iff in E as [_ E]. apply orb_true_iff in E as [E|E].
  - apply Nat.ltb_lt in E. lia.
  - destruct (Z.ltb_spec (sval d) 0); [lia|]. destruct (Z.ltb_spec (sval v) 0); [|lia].
    apply Z.ltb_lt in E. unfold back in E.
    pose proof (back_sign v (normal_wf _ Nv)) as S. unfold is_negative, back in S.
    assert (S2 : neg_flag <= last v 0) by (apply Z.leb_le; rewrite S; apply Z.ltb_lt; lia).
    assert (Dl : digit (last v 0)).
    { destruct (wf_snoc_inv v (normal_wf _ Nv)) as (b & y & -> & _ & Hy). rewrite last_snoc. exact Hy. }
    clear - E S2 Dl. ub. lia.
Qed.

Lemma is_zero_of d : normal d -> sval d = 0 -> is_zero d = true.
Proof. intros N E. rewrite is_zero_correct, E by assumption. reflexivity. Qed.

Lemma removelast_snoc {A} (a : list A) x : removelast (a ++ [x]) = a.
Proof. apply removelast_last. Qed.

Lemma unsigned_length dv m : Forall digit dv -> 0 < back dv -> uval dv < Bp m -> (length dv <= m)%nat.
Proof.
  intros F P U. destruct dv as [|y t] eqn:E0; [cbn; lia|]. rewrite <- E0 in *.
  assert (W : wf dv) by (split; [subst; discriminate|exact F]).
  destruct (wf_snoc_inv dv W) as (a & x & E & Fa & Hx). unfold back in P. rewrite E, last_snoc in P.
  rewrite E, uval_app in U. cbn [uval] in U.
  rewrite E, app_length. cbn [length]. pose proof (uval_bound a Fa).
  assert (L : Bp (length a) < Bp m) by (pose proof (Bp_pos (length a)); nia).
  apply Bp_lt_inv in L. lia.
Qed.

(** In the general case the dividend does not become shorter than the divisor. *)
Lemma negate_length d v : normal d -> normal v -> sval v < 0 -> easy_case d v = false ->
  (length v <= length d)%nat -> (length v <= length (negate d))%nat.
Proof.
  intros Nd Nv Hv Ee LV. destruct (Nat.le_gt_cases (length v) (length (negate d))) as [|G]; [assumption|exfalso].
  destruct (negate_correct d Nd) as [N1 S1].
  pose proof (normal_wf _ N1) as W1. pose proof (normal_wf _ Nd) as Wd.
  pose proof (normal_long (length (negate d)) d Nd ltac:(lia) (wf_len1 _ W1)) as NL.
  pose proof (sval_rng _ W1) as R1. unfold rng in *. rewrite S1 in R1.
  destruct (Bp_half (length (negate d)) (wf_len1 _ W1)) as [h Eh]. rewrite Eh in *.
  assert (SH : sval d = h) by lia. pose proof (Bp_pos (length (negate d))) as PH. rewrite Eh in PH.
  assert (LD : length d = S (length (negate d))).
  { destruct (Nat.le_gt_cases (length d) (S (length (negate d)))) as [|G2]; [lia|exfalso].
    pose proof (normal_long (S (length (negate d))) d Nd G2 ltac:(lia)) as NL2. apply NL2. unfold rng.
    rewrite Bp_S, Eh, SH. ub. lia. }
  assert (B0 : back d = 0).
  { destruct (wf_snoc_inv d Wd) as (a & x & Ed & Fa & Hx). unfold back. rewrite Ed, last_snoc.
    assert (La : length a = length (negate d)) by (rewrite Ed, app_length in LD at 1; cbn in LD; lia).
    pose proof (nonneg_uval d Wd ltac:(lia)) as U. rewrite Ed in U at 2. rewrite uval_app, La, Eh, SH in U. cbn [uval] in U.
    pose proof (uval_bound a Fa). destruct Hx. nia. }
  unfold easy_case in Ee. rewrite (back_sign d), (back_sign v) in Ee by (apply Nd || apply Nv).
  destruct (Z.ltb_spec (sval d) 0); [lia|]. destruct (Z.ltb_spec (sval v) 0); [|lia].
  rewrite B0 in Ee.
  assert (BV : 0 < w32 (- back v)).
  { pose proof (back_sign v (normal_wf _ Nv)) as S. unfold is_negative, back in *.
    assert (S2 : neg_flag <= last v 0) by (apply Z.leb_le; rewrite S; apply Z.ltb_lt; lia).
    assert (Dl : digit (last v 0)).
    { destruct (wf_snoc_inv v (normal_wf _ Nv)) as (b & y & -> & _ & Hy). rewrite last_snoc. exact Hy. }
    clear - S2 Dl. ub. lia. }
  apply andb_false_iff in Ee as [Ee|Ee].
  - apply Nat.leb_gt in Ee. lia.
  - apply orb_false_iff in Ee as [_ Ee]. apply Z.ltb_ge in Ee. lia.
Qed.

Theorem reduce_mod_correct_partial d v : normal d -> normal v -> sval v <> 0 -> ~ bad_division d v ->
  exists q r, reduce_mod d v = Some (q, r) /\ normal q /\ normal r /\
  sval q = sval d / sval v /\ sval r = sval d mod sval v.
Proof.
  intros Nd Nv V0 NB. unfold reduce_mod.
  pose proof (normal_wf _ Nd) as Wd. pose proof (normal_wf _ Nv) as Wv.
  rewrite (back_sign v) by assumption. rewrite (back_sign d) by assumption.
  destruct (easy_case d v) eqn:Ee.
  - destruct (easy_case_spec d v Nd Nv Ee) as [_ EC].
    { intros P1 P2 L. destruct (Z.le_gt_cases (sval d) (- sval v)); [assumption|].
      exfalso. apply NB. apply easy_case_bad; auto. }
    rewrite is_zero_correct by assumption.
    destruct (of_int_correct 0 ltac:(lia)) as [Z1 Z2]. destruct (of_int_correct (-1) ltac:(lia)) as [M1 M2].
    destruct (add_assign_correct d v Nd Nv) as [A1 A2].
    destruct (Z.ltb_spec (sval d) 0), (Z.ltb_spec (sval v) 0), (Z.ltb_spec 0 (sval v)); try lia;
      destruct (Z.eqb_spec (sval d) 0); try lia; cbn [Bool.eqb orb];
      eexists _, _; (split; [reflexivity|]); (split; [first [exact Z1|exact M1]|]);
      (split; [first [exact Nd|exact A1]|]); rewrite ?Z2, ?M2, ?A2.
    + split; [apply (Z.div_unique_neg _ _ _ (sval d))|apply (Z.mod_unique_neg _ _ 0)]; lia.
    + split; [apply (Z.div_unique_pos _ _ _ (sval d + sval v))|apply (Z.mod_unique_pos _ _ (-1))]; lia.
    + split; [apply (Z.div_unique_neg _ _ _ (sval d))|apply (Z.mod_unique_neg _ _ 0)]; lia.
    + split; [apply (Z.div_unique_neg _ _ _ (sval d + sval v))|apply (Z.mod_unique_neg _ _ (-1))]; lia.
    + split; [apply (Z.div_unique_pos _ _ _ (sval d))|apply (Z.mod_unique_pos _ _ 0)]; lia.
    + split; [apply (Z.div_unique_pos _ _ _ (sval d))|apply (Z.mod_unique_pos _ _ 0)]; lia.
  - assert (LV : (length v <= length d)%nat).
    { unfold easy_case in Ee. apply andb_false_iff in Ee as [Ee|Ee].
      - apply Nat.leb_gt in Ee. lia.
      - apply orb_false_iff in Ee as [Ee _]. apply Nat.ltb_ge in Ee. lia. }
    remember (sval v <? 0) as neg eqn:Eneg.
    set (d1 := if neg then negate d else d).
    assert (ND1 : normal d1 /\ sval d1 = if neg then - sval d else sval d).
    { subst d1. destruct neg; [apply negate_correct, Nd|auto]. }
    destruct ND1 as [N1 S1].
    assert (QR : forall a, (0 < a) -> a = (if neg then - sval v else sval v) ->
       sval d / sval v = sval d1 / a /\ sval d mod sval v = if neg then - (sval d1 mod a) else sval d1 mod a).
    { intros a Pa Ea. rewrite S1. clear Eneg. destruct neg.
      - replace (sval v) with (- a) by lia. replace (sval d) with (- - sval d) at 1 3 by lia.
        rewrite Z.div_opp_opp, Z.mod_opp_opp by lia. auto.
      - subst a. auto. }
    destruct (Nat.eqb_spec (length v) 1) as [L1|L1].
    + destruct v as [|d0 [|? ?]]; try discriminate. cbn [nth].
      assert (D0 : digit d0) by (destruct Wv as [_ F]; inversion F; assumption).
      rewrite sval_1 in *.
      destruct (Z.ltb_spec (w32 (d0 + 1)) 3) as [C3|C3].
      * destruct (Z.eqb_spec d0 0) as [E0|E0]; [subst; exfalso; apply V0; reflexivity|].
        exists d1, [0]. split; [reflexivity|]. split; [exact N1|].
        split; [apply normal_1; ub; lia|]. rewrite sval_1, S1.
        assert (CASES : (neg = true /\ s32 d0 = -1) \/ (neg = false /\ s32 d0 = 1)).
        { clear - Eneg D0 E0 C3. rewrite Eneg. ub.
          destruct (Z.ltb_spec d0 2147483648); [destruct (Z.ltb_spec d0 0)|destruct (Z.ltb_spec (d0 - 4294967296) 0)]; lia. }
        destruct CASES as [[-> ->]|[-> ->]]; change (s32 0) with 0; split; lia.
      * set (dv := if neg then w32 (- d0) else d0).
        assert (DV : digit dv /\ 0 < dv /\ dv <= neg_flag /\ dv = if neg then - s32 d0 else s32 d0).
        { subst dv. clear - Eneg D0 V0. rewrite Eneg. ub.
          destruct (Z.ltb_spec d0 2147483648); [destruct (Z.ltb_spec d0 0)|destruct (Z.ltb_spec (d0 - 4294967296) 0)]; lia. }
        destruct DV as (V1 & V2 & V3 & V4).
        destruct (shift_modulo_spec d1 dv (normal_wf _ N1) V1 V2) as (q & r & E & Q1 & Q2 & Q3).
        rewrite E. destruct (QR dv V2 V4) as [QA QB].
        eexists _, _. split; [reflexivity|]. split; [exact Q1|].
        assert (BR : 0 <= r < dv) by (rewrite Q3; apply Z.mod_pos_bound; lia).
        assert (RI : normal (of_int (if neg then w32 (- r) else r)) /\ sval (of_int (if neg then w32 (- r) else r)) = if neg then - r else r).
        { destruct neg.
          - assert (Ei : of_int (w32 (- r)) = of_int (- r)) by (unfold of_int; f_equal; clear; ub; lia).
            rewrite Ei. apply of_int_correct. clear - BR V3. ub. lia.
          - apply of_int_correct. clear - BR V3. ub. lia. }
        destruct RI as [RI1 RI2]. split; [exact RI1|]. rewrite QA, QB. split; [exact Q2|].
        rewrite RI2, Q3. reflexivity.
    + set (div0 := if neg then negate v else v) in *.
      assert (D0 : normal div0 /\ sval div0 = (if neg then - sval v else sval v) /\ 0 < sval div0).
      { subst div0. rewrite Eneg. destruct (Z.ltb_spec (sval v) 0).
        - destruct (negate_correct v Nv) as [A1 A2]. split; [exact A1|]. lia.
        - split; [exact Nv|]. lia. }
      destruct D0 as (ND & SDv & PD).
      pose proof (normal_wf _ ND) as WD.
      assert (UD : uval div0 = sval div0) by (symmetry; apply nonneg_uval; [exact WD|lia]).
      destruct (QR (sval div0) PD SDv) as [QA QB]. rewrite QA, QB.
      assert (LL : forall dv, Forall digit dv -> 0 < back dv -> uval dv = sval div0 ->
                (length dv <= length d1)%nat).
      { intros dv Fdv Pdv Udv. apply Nat.le_trans with (length v).
        - apply (unsigned_length dv); auto. rewrite Udv, SDv.
          pose proof (sval_rng v Wv) as RV. unfold rng in RV. pose proof (Bp_pos (length v)).
          destruct neg; lia.
        - subst d1. destruct neg; [|exact LV].
          apply negate_length; auto. apply Z.ltb_lt. symmetry. exact Eneg. }
      destruct (wf_snoc_inv div0 WD) as (a & x & Ea & Fa & Hx).
      assert (Ebk : back div0 = x) by (unfold back; rewrite Ea; apply last_snoc).
      rewrite Ebk.
      assert (XS : x < neg_flag).
      { pose proof (back_sign div0 WD) as S. unfold is_negative in S. rewrite Ebk in S.
        destruct (Z.ltb_spec (sval div0) 0); [lia|]. apply Z.leb_gt in S. exact S. }
      destruct (Z.eqb_spec x 0) as [X0|X0]; cbn [andb].
      * (* leading zero digit dropped *)
        assert (Er : removelast div0 = a) by (rewrite Ea; apply removelast_snoc). rewrite Er.
        assert (UA : uval a = sval div0).
        { rewrite <- UD, Ea, uval_app, X0. cbn [uval]. lia. }
        destruct a as [|a0 [|a1 a']] eqn:EA; [cbn in UA; lia| |].
        -- cbn [length Nat.eqb nth]. cbn [uval] in UA.
           assert (Da0 : digit a0) by (inversion Fa; assumption).
           destruct (shift_modulo_spec d1 a0 (normal_wf _ N1) Da0 ltac:(lia)) as (q & r & E & Q1 & Q2 & Q3).
           rewrite E. eexists _, _. split; [reflexivity|]. split; [exact Q1|].
           assert (E0 : sval div0 = a0) by lia. rewrite E0.
           assert (BR : 0 <= r < a0) by (rewrite Q3; apply Z.mod_pos_bound; lia).
           destruct (from_unsigned_correct r) as [F1 F2]; [clear - BR Da0; ub; lia|].
           destruct neg.
           ++ destruct (negate_correct _ F1) as [G1 G2]. split; [exact G1|]. split; [exact Q2|]. rewrite G2, F2, Q3. reflexivity.
           ++ split; [exact F1|]. split; [exact Q2|]. rewrite F2, Q3. reflexivity.
        -- cbn [length Nat.eqb].
           assert (PB : 0 < back (a0 :: a1 :: a')).
           { assert (Wa : wf (a0 :: a1 :: a')) by (split; [discriminate|exact Fa]).
             destruct (wf_snoc_inv _ Wa) as (b & z & Eb & Fb & Hz).
             unfold back. rewrite Eb, last_snoc.
             rewrite Ea, Eb, <- app_assoc, X0 in ND. cbn [app] in ND.
             apply normal_top2 in ND; auto; [|ub; lia].
             unfold redundant in ND. clear - ND Hz. ub. lia. }
           destruct (long_division_spec d1 (a0 :: a1 :: a') neg (normal_wf _ N1)) as (q & r & E & Q1 & Q2 & Q3 & Q4);
             [cbn [length]; lia|exact Fa|exact PB|apply LL; auto|].
           rewrite E. eexists _, _. split; [reflexivity|]. rewrite UA in Q3, Q4. auto.
      * destruct (long_division_spec d1 div0 neg (normal_wf _ N1)) as (q & r & E & Q1 & Q2 & Q3 & Q4).
        -- destruct (Nat.le_gt_cases 2 (length div0)) as [|G]; [assumption|exfalso].
           assert (E1 : length div0 = 1%nat) by (pose proof (wf_len1 _ WD); lia).
           pose proof (normal_long 1 v Nv ltac:(pose proof (wf_len1 _ Wv); lia) ltac:(lia)) as NL.
           apply NL. pose proof (sval_rng _ WD) as RD. rewrite E1 in RD. unfold rng in *. rewrite Bp_1 in *.
           rewrite SDv in RD, PD. destruct neg; ub; lia.
        -- apply WD.
        -- rewrite Ebk. destruct Hx. lia.
        -- apply LL; [apply WD|rewrite Ebk; destruct Hx; lia|exact UD].
        -- rewrite E. eexists _, _. split; [reflexivity|]. rewrite UD in Q3, Q4. auto.
Qed.
