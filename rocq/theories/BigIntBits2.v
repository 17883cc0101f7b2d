(** XOR, inclusion tests and bit queries of big integers. *)

From Coq Require Import ZArith List Bool Lia.
From Verif Require Import BigIntModel BigIntSpec BigIntBase BigIntAdd BigIntMul BigIntDiv BigIntBits.
Import ListNotations.
Open Scope Z_scope.

(** ** XOR *)
Lemma lxor_top x y : digit x -> digit y ->
  (neg_flag <=? Z.lxor x y) = xorb (neg_flag <=? x) (neg_flag <=? y).
Proof. intros Hx Hy. rewrite !digit_bit by auto using digit_lxor. apply Z.lxor_spec. Qed.

Lemma uval_compl_sign b s : Z.lnot (uval b + Bp (length b) * s) = uval (map cpl b) + Bp (length b) * Z.lnot s.
Proof. rewrite uval_cpl. unfold Z.lnot. lia. Qed.

Lemma xor_same d x : normal d -> normal x -> length d = length x ->
  normal (shrink (map2 Z.lxor d x)) /\ sval (shrink (map2 Z.lxor d x)) = Z.lxor (sval d) (sval x).
Proof.
  intros Nd Nx L. pose proof (normal_wf _ Nd) as [Ned Fd]. pose proof (normal_wf _ Nx) as [Nex Fx].
  assert (Wm : wf (map2 Z.lxor d x)).
  { split; [|apply map2_digits; auto using digit_lxor].
    intros E. apply (f_equal (@length Z)) in E. rewrite map2_length in E by exact L. destruct d; [congruence|discriminate]. }
  destruct (shrink_spec _ Wm) as [S1 S2]. split; [exact S1|]. rewrite S2.
  assert (G : sg (map2 Z.lxor d x) = Z.lxor (sg d) (sg x)).
  { destruct (exists_last Ned) as (a & y & ->). destruct (exists_last Nex) as (b & z & ->).
    rewrite !app_length in L. cbn [length] in L. rewrite map2_app by lia. cbn [map2].
    apply Forall_app in Fd as [_ Hy]. apply Forall_app in Fx as [_ Hz]. inversion Hy; inversion Hz; subst.
    unfold sg, is_negative, back. rewrite !last_snoc, lxor_top by assumption.
    destruct (neg_flag <=? y), (neg_flag <=? z); reflexivity. }
  rewrite !sval_sg, (map2_value Z.lxor Z.lxor lxor_digits), G, map2_length by assumption. reflexivity.
Qed.

Lemma xor_long a b x : normal (a ++ b) -> normal x -> length a = length x -> b <> [] ->
  normal (map2 Z.lxor a x ++ (if is_negative x then map cpl b else b)) /\
  sval (map2 Z.lxor a x ++ (if is_negative x then map cpl b else b)) = Z.lxor (sval (a ++ b)) (sval x).
Proof.
  intros ND Nx L Neb. pose proof (normal_wf _ ND) as WD. pose proof (normal_wf _ Nx) as [Nex Fx].
  assert (Fab : Forall digit a /\ Forall digit b) by (apply Forall_app, WD). destruct Fab as [Fa Fb].
  assert (Wb : wf b) by (split; assumption).
  assert (Fm : Forall digit (map2 Z.lxor a x)) by (apply map2_digits; auto using digit_lxor).
  set (b' := if is_negative x then map cpl b else b).
  assert (Wb' : wf b') by (unfold b'; destruct (is_negative x); [apply wf_cpl|]; assumption).
  assert (Lb : length b' = length b) by (unfold b'; destruct (is_negative x); [apply map_length|reflexivity]).
  split.
  - destruct (le_lt_dec 2 (length b)) as [L2|L2].
    + apply normal_app; [exact Fm|exact Wb'|lia|]. apply normal_app in ND; auto.
      unfold b'. destruct (is_negative x); [apply normal_cpl|]; exact ND.
    + destruct b as [|z [|? ?]]; [congruence| |cbn in L2; lia].
      assert (Nea : a <> []) by (intros ->; destruct x; [congruence|discriminate]).
      destruct (exists_last Nea) as (c & y & ->). destruct (exists_last Nex) as (c' & y' & ->).
      rewrite !app_length in L. cbn [length] in L. rewrite map2_app by lia. cbn [map2].
      apply Forall_app in Fa as [Fc Fy]. apply Forall_app in Fx as [Fc' Fy'].
      inversion Fy as [|? ? Hy _]; inversion Fy' as [|? ? Hy' _]; inversion Fb as [|? ? Hz _]; subst.
      unfold b'. replace (is_negative (c' ++ [y'])) with (neg_flag <=? y') by (unfold is_negative, back; rewrite last_snoc; reflexivity).
      rewrite <- app_assoc in ND |- *. cbn [app] in ND. apply normal_top2 in ND; auto.
      pose proof (lxor_top y y' Hy Hy') as T. pose proof (digit_cpl z Hz).
      assert (FF : Forall digit (map2 Z.lxor c c')) by (apply map2_digits; auto using digit_lxor).
      destruct (neg_flag <=? y'); cbn [app map].
      * apply normal_top2; auto using digit_lxor. rewrite xorb_true_r in T.
        intros R. apply ND. unfold redundant in *. destruct R as [[R1 R2]|[R1 R2]]; [right|left].
        -- split; [unfold cpl in R1; lia|]. apply Z.leb_gt in R2. rewrite R2 in T.
           destruct (Z.leb_spec neg_flag y); [assumption|discriminate].
        -- split; [unfold cpl in R1; lia|]. apply Z.leb_le in R2. rewrite R2 in T.
           destruct (Z.leb_spec neg_flag y); [discriminate|assumption].
      * apply normal_top2; auto using digit_lxor. rewrite xorb_false_r in T.
        intros R. apply ND. unfold redundant in *. destruct R as [[R1 R2]|[R1 R2]]; [left|right]; (split; [exact R1|]).
        -- apply Z.leb_gt. rewrite <- T. apply Z.leb_gt. exact R2.
        -- apply Z.leb_le. rewrite <- T. apply Z.leb_le. exact R2.
  - rewrite !sval_sg, !uval_app, !app_length, !Bp_add, map2_length by exact L.
    replace (uval a + Bp (length a) * uval b + Bp (length a) * Bp (length b) * sg (a ++ b)) with
      (uval a + Bp (length a) * (uval b + Bp (length b) * sg (a ++ b))) by ring.
    rewrite (map2_value Z.lxor Z.lxor lxor_digits) by assumption.
    unfold sg. rewrite !is_negative_app by (apply Wb' || assumption). fold (sg b). fold (sg b'). fold (sg x).
    rewrite Lb. unfold b', sg. destruct (is_negative x).
    + rewrite is_negative_cpl by exact Wb. rewrite Z.lxor_m1_r, uval_compl_sign.
      destruct (is_negative b); cbn [negb]; [change (Z.lnot (-1)) with 0 | change (Z.lnot 0) with (-1)]; ring.
    + rewrite Z.lxor_0_r. ring.
Qed.

Theorem xor_assign_correct d x : normal d -> normal x ->
  normal (xor_assign d x) /\ sval (xor_assign d x) = Z.lxor (sval d) (sval x).
Proof.
  intros Nd Nx. unfold xor_assign. destruct (Nat.eqb_spec (length d) (length x)) as [E|E].
  - apply xor_same; assumption.
  - destruct (Nat.ltb_spec (length d) (length x)) as [L|L].
    + destruct (split_at (length d) x ltac:(lia)) as (a & b & -> & La).
      rewrite <- La. rewrite skipn_app_len, firstn_app_len, low2_app by auto.
      rewrite Z.lxor_comm, (map2_comm Z.lxor d Z.lxor_comm a). apply xor_long; auto.
      intros ->. rewrite app_nil_r in L. lia.
    + destruct (split_at (length x) d ltac:(lia)) as (a & b & -> & La).
      rewrite <- La. rewrite skipn_app_len, firstn_app_len, low2_app by auto.
      apply xor_long; auto. intros ->. rewrite app_nil_r in E. lia.
Qed.

(** ** Inclusion *)
Lemma forallb_zero l : Forall digit l -> (forallb (fun v => v =? 0) l = true <-> uval l = 0).
Proof.
  induction l as [|x l IH]; intros F; [cbn; tauto|]. inversion F as [|? ? Hx Fl]; subst.
  cbn [forallb]. rewrite andb_true_iff, Z.eqb_eq, IH, uval_cons by exact Fl.
  pose proof (uval_bound l Fl). ub. split; nia.
Qed.

Theorem bitwise_subset_correct d x : normal d -> normal x ->
  bitwise_subset d x = (Z.ldiff (sval d) (sval x) =? 0).
Proof.
  intros Nd Nx.
  pose proof (normal_wf _ Nd) as Wd. pose proof (normal_wf _ Nx) as Wx.
  pose proof (wf_len1 _ Wd) as Ld. pose proof (wf_len1 _ Wx) as Lx.
  assert (LD : Z.ldiff (sval d) (sval x) = Z.land (sval d) (sval (map cpl x))).
  { rewrite sval_cpl by exact Wx. rewrite Z.ldiff_land. f_equal. unfold Z.lnot. lia. }
  assert (NEG : forall D y, normal D -> normal y -> is_negative y = true -> (length y <= length D)%nat ->
    is_negative D = true \/ (length y < length D)%nat -> Z.land (sval D) (sval y) <> 0).
  { intros D y ND Ny Sy L C E0. destruct (and_neg D y ND Ny Sy L C) as [A1 A2]. rewrite E0 in A2.
    assert (E1 : low2 Z.land D y = [0]) by (apply normal_unique; auto using normal_1, digit_0).
    destruct (split_at (length y) D L) as (a & b & -> & La). rewrite low2_app in E1 by exact La.
    assert (Lb : (length a + length b = 1)%nat).
    { apply (f_equal (@length Z)) in E1. rewrite app_length, map2_length in E1 by exact La. exact E1. }
    pose proof (wf_len1 _ (normal_wf _ Ny)).
    assert (b = []) by (destruct b; [reflexivity|cbn in Lb; lia]). subst b. rewrite app_nil_r in *.
    destruct C as [C|C]; [|lia].
    pose proof (normal_wf _ ND) as [Nea Fa]. pose proof (normal_wf _ Ny) as [_ Fy].
    destruct (sg_land a y Fa Fy La Nea) as [_ G2]. rewrite E1, C, Sy in G2. discriminate. }
  pose proof (normal_cpl _ Nx) as Ncx. pose proof (is_negative_cpl _ Wx) as Scx.
  rewrite LD. unfold bitwise_subset.
  assert (POS : forall i, (0 < i)%nat -> (i <= length d)%nat -> (i <= length x)%nat ->
    (i = length d /\ is_negative d = false \/ i = length (map cpl x) /\ is_negative (map cpl x) = false) ->
    forallb (fun v => v =? 0) (map2 andnot_digit (firstn i d) (firstn i x)) = (Z.land (sval d) (sval (map cpl x)) =? 0)).
  { intros i Pi L1 L2 C. rewrite map2_andnot, <- firstn_map.
    destruct (and_pos d (map cpl x) i Wd (wf_cpl _ Wx) Pi L1) as [_ V]; auto; [rewrite map_length; exact L2|].
    assert (Wm : wf (map2 Z.land (firstn i d) (firstn i (map cpl x)))).
    { split.
      - intros E. apply (f_equal (@length Z)) in E.
        rewrite map2_length, firstn_length in E; [cbn in E; lia|]. rewrite !firstn_length, map_length. lia.
      - apply map2_digits; auto using digit_land; apply Forall_firstn; [apply Wd|apply Forall_cpl, Wx]. }
    destruct (strip_spec _ Wm) as [_ V2]. rewrite V2 in V. rewrite <- V.
    destruct (Z.eqb_spec (uval (map2 Z.land (firstn i d) (firstn i (map cpl x)))) 0) as [E|E].
    - apply forallb_zero; [apply Wm|exact E].
    - apply not_true_is_false. intros F. apply E. apply forallb_zero in F; [exact F|apply Wm]. }
  symmetry.
  destruct (is_negative d) eqn:Sd; destruct (is_negative x) eqn:Sx; cbn [andb negb Bool.eqb] in *.
  - destruct (Nat.ltb_spec (length d) (length x)).
    + apply Z.eqb_neq. rewrite Z.land_comm. apply NEG; auto; rewrite map_length; [lia|auto].
    + rewrite POS; auto; rewrite ?map_length; auto; lia.
  - apply Z.eqb_neq. destruct (le_lt_dec (length x) (length d)).
    + apply NEG; auto; rewrite ?map_length; auto.
    + rewrite Z.land_comm. apply NEG; auto; rewrite ?map_length; auto; lia.
  - rewrite POS; auto; try lia. rewrite map_length.
    destruct (le_lt_dec (length d) (length x)); [left|right]; split; auto; lia.
  - destruct (Nat.ltb_spec (length x) (length d)).
    + apply Z.eqb_neq. apply NEG; auto; rewrite ?map_length; auto; lia.
    + rewrite POS; auto; lia.
Qed.
