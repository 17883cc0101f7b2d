(** Operations on rational vectors. *)

From Coq Require Import List Arith ZArith QArith Qfield Bool Lia.
From Verif Require Import BitsModel VecModel RunModel RunProofs MatModel MatSpec MatProofs MatArith MatDiv ArithModel ArithSpec ArithProofs RatVecModel RatVecSpec RatVecProofs.
Import ListNotations.
Open Scope Z_scope.

Lemma is_rv_ext v n p q : is_rv v n p -> (forall i, (i < n)%nat -> (p i == q i)%Q) -> is_rv v n q.
Proof. intros (Hd & x & V & HX) H. split; auto. exists x. split; auto. intros i Hi. rewrite <- H by auto. auto. Qed.
Lemma is_rv_intro l d n x q : is_vec l n x -> 0 < d < 2 ^ 63 -> (forall i, (i < n)%nat -> in64 (x i) /\ (inject_Z (x i) == q i * inject_Z d)%Q) -> is_rv (mk_rv l d) n q.
Proof. intros V D H. split; auto. exists x. auto. Qed.

(** * constructors *)
Theorem make_ok l n x d : is_vec l n x -> (forall i, (i < n)%nat -> in64 (x i)) -> d <> 0 -> - 2 ^ 63 < d < 2 ^ 63 ->
  gives (rv_make l d) (fun v => is_rv v n (fun i => inject_Z (x i) / inject_Z d)%Q /\ den v = Z.abs d)
    (fun e => e = Overflow /\ d < 0 /\ In (- 2 ^ 63) l).
Proof.
  intros V HX D0 D. unfold rv_make. eapply gives_bind; [apply (chk64 _ (fun a => a = Z.abs d)); [auto|]|].
  { intros H. exfalso. apply H. unfold in64. lia. }
  intros a ->. destruct (Z.ltb_spec d 0).
  - eapply gives_bind; [eapply gives_conv; [intros u H0; exact H0| |apply (vmap_chk Z.opp l n x V)]|].
    + intros e (-> & i & Hi & N). repeat split; auto. apply (in_get _ _ _ _ V). exists i. split; auto.
      specialize (HX i Hi). unfold in64 in *. lia.
    + intros u (U & HU). cbn. split; [|reflexivity]. apply (is_rv_intro u _ n _ _ U); [lia|]. intros i Hi. split; [auto|].
      rewrite inject_Z_opp, Z.abs_neq, inject_Z_opp by lia. field. apply inj_neq0; auto.
  - cbn. split; [|reflexivity]. apply (is_rv_intro l _ n _ _ V); [lia|]. intros i Hi. split; [auto|]. rewrite Z.abs_eq by lia. field. apply inj_neq0; auto.
Qed.
Lemma zero_ok n : is_rv (rv_zero n) n (fun _ => 0%Q).
Proof.
  apply (is_rv_intro _ _ n (fun _ => 0)); [apply is_vec_repeat|big; lia|]. intros i Hi. split; [unfold in64; big; lia|]. ring.
Qed.

(** * sums *)
Lemma s64_cong a b : a mod W64 = b mod W64 -> s64 a = s64 b.
Proof. intros H. unfold s64. f_equal. rewrite <- (Zplus_mod_idemp_l a), <- (Zplus_mod_idemp_l b), H. reflexivity. Qed.
Lemma u64_mod x : u64 x mod W64 = x mod W64.
Proof. unfold u64. apply Zmod_mod. Qed.
Definition linear (op : Z -> Z -> Z) (s t : Z) : Prop := forall a b, op a b = s * a + t * b.
Lemma combine_entry op s t x y f g z : linear op s t -> z = op (x * f) (y * g) -> in64 z ->
  s64 (op (u64 (u64 x * f)) (u64 (u64 y * g))) = z.
Proof.
  intros L Ez Hz. rewrite <- (s64_small z) by exact Hz. apply s64_cong. subst z. rewrite !L.
  rewrite Zplus_mod, (Zplus_mod (s * (x * f))). f_equal. f_equal.
  - rewrite Zmult_mod, u64_mod, <- Zmult_mod. rewrite !Z.mul_assoc. rewrite (Z.mul_comm s), (Z.mul_comm s x), <- !Z.mul_assoc.
    rewrite Zmult_mod, u64_mod, <- Zmult_mod. reflexivity.
  - rewrite Zmult_mod, u64_mod, <- Zmult_mod. rewrite !Z.mul_assoc. rewrite (Z.mul_comm t), (Z.mul_comm t y), <- !Z.mul_assoc.
    rewrite Zmult_mod, u64_mod, <- Zmult_mod. reflexivity.
Qed.

Theorem combine_ok op s t v w n p q : linear op s t -> is_rv v n p -> is_rv w n q ->
  Z.lcm (den v) (den w) < 2 ^ 63 ->
  (forall i, (i < n)%nat -> holds (Z.lcm (den v) (den w)) (inject_Z s * p i + inject_Z t * q i)%Q) ->
  gives (rv_combine op v w) (fun r => is_rv r n (fun i => inject_Z s * p i + inject_Z t * q i)%Q /\ reduced r)
    (fun e => e = Overflow /\ exists i, (i < n)%nat /\ ((inject_Z s * p i + inject_Z t * q i) * inject_Z (Z.lcm (den v) (den w)) == inject_Z (- 2 ^ 63))%Q).
Proof.
  intros L (Hd & x & V & HX) (Hd' & y & V' & HY) HL HH. unfold rv_combine.
  destruct (lcm_correct (den v) (den w)) as (mm & E & _); [big; lia|big; lia|big; lia|]. rewrite E. cbn [of_option bind].
  set (m := Z.lcm (den v) (den w)) in *. set (g := Z.gcd (den v) (den w)) in *.
  assert (G : 0 < g). { unfold g. pose proof (Z.gcd_nonneg (den v) (den w)). assert (Z.gcd (den v) (den w) <> 0) by (intros E0; apply Z.gcd_eq_0_l in E0; lia). lia. }
  destruct (Z.gcd_divide_l (den v) (den w)) as (a & Ea). destruct (Z.gcd_divide_r (den v) (den w)) as (b & Eb). fold g in Ea, Eb.
  assert (F0 : den w / g = b) by (rewrite Eb; apply Z.div_mul; lia). assert (F1 : den v / g = a) by (rewrite Ea; apply Z.div_mul; lia).
  rewrite F0, F1. assert (M : m * g = den v * den w) by (apply lcm_gcd; lia).
  assert (M1 : m = den v * b) by (rewrite Ea, Eb in M; rewrite Ea; nia). assert (M2 : m = den w * a) by (rewrite Ea, Eb in M; rewrite Eb; nia).
  assert (HZ : forall i, (i < n)%nat -> in64 (op (x i * b) (y i * a)) /\ (inject_Z (op (x i * b)%Z (y i * a)%Z) == (inject_Z s * p i + inject_Z t * q i) * inject_Z m)%Q).
  { intros i Hi. destruct (HX i Hi) as (_ & Q1). destruct (HY i Hi) as (_ & Q2).
    assert (K : (inject_Z (op (x i * b)%Z (y i * a)%Z) == (inject_Z s * p i + inject_Z t * q i) * inject_Z m)%Q).
    { rewrite L, inject_Z_plus, !inject_Z_mult, Q1, Q2. rewrite Qmult_plus_distr_l. apply Qplus_comp.
      - rewrite M1, inject_Z_mult. ring.
      - rewrite M2, inject_Z_mult. ring. }
    split; auto. apply (holds_iff m _ _ K); auto. }
  eapply gives_bind with (P := fun l => is_vec l n (fun i => op (x i * b) (y i * a))).
  - destruct V as (LV & GV). rewrite LV.
    apply (gives_downto (fun k l => is_vec l n (fun i => if (i <? k)%nat then x i else op (x i * b) (y i * a)))).
    + split; auto. intros i Hi. destruct (Nat.ltb_spec i n); [auto|lia].
    + intros k l Hk (Ll & Gl). eapply gives_bind; [apply (gives_vget l k (x k) (fun z => z = x k))|].
      * rewrite (Gl k) by lia. destruct (Nat.ltb_spec k (S k)); [auto|lia].
      * auto.
      * intros z ->. eapply gives_bind; [apply (gives_vget (num w) k (y k) (fun z => z = y k))|].
        -- apply V'; lia. -- auto.
        -- intros z ->. eapply gives_vput_vec; [exact (conj Ll Gl)|lia|]. intros l' Hl'. eapply is_vec_ext; [exact Hl'|].
           intros i Hi. unfold upd1. destruct (Nat.eqb_spec i k) as [->|N].
           ++ destruct (Nat.ltb_spec k k); [lia|]. apply (combine_entry op s t); auto. apply HZ; lia.
           ++ destruct (Nat.ltb_spec i (S k)), (Nat.ltb_spec i k); auto; lia.
    + intros l Hl. eapply is_vec_ext; [exact Hl|]. intros i Hi. reflexivity.
  - intros l Vl. eapply gives_conv; [| |apply (normalize_ok (mk_rv l m) n)].
    + intros r (H & R & _). split; [exact H|auto].
    + intros e (-> & H). split; auto. cbn [num] in H. apply (in_get _ _ _ _ Vl) in H as (i & Hi & Ei). exists i. split; auto.
      rewrite <- Ei. symmetry. apply HZ; auto.
    + apply (is_rv_intro _ _ n _ _ Vl); [split; [rewrite M1; nia|exact HL]|]. exact HZ.
Qed.

(** * operations with numbers *)
Lemma u64_pos x : 0 <= x < 2 ^ 63 -> u64 x = x.
Proof. intros H. unfold u64. apply Z.mod_small. big. lia. Qed.
Ltac inj := repeat rewrite ?inject_Z_mult, ?inject_Z_plus, ?inject_Z_opp.
Lemma negate_ok v n q : is_rv v n q ->
  gives (rv_negate v) (fun r => is_rv r n (fun i => - q i)%Q /\ den r = den v) (unfit n (den v) (fun i => - q i)%Q).
Proof.
  intros (Hd & x & V & HX). unfold rv_negate. eapply gives_bind; [eapply gives_conv; [intros u H0; exact H0| |apply (vmap_chk Z.opp (num v) n x V)]|].
  - intros e (-> & i & Hi & N). split; auto. exists i. split; auto. rewrite (holds_iff _ _ (- x i)); auto.
    inj. rewrite (proj2 (HX i Hi)). ring.
  - intros u (U & HU). cbn. split; auto. apply (is_rv_intro u _ n _ _ U); [auto|]. intros i Hi. split; auto. inj. rewrite (proj2 (HX i Hi)). ring.
Qed.
Lemma scale_ok v n q k : is_rv v n q ->
  gives (vec_scale RV (num v) k) (fun u => is_rv (mk_rv u (den v)) n (fun i => inject_Z k * q i)%Q) (unfit n (den v) (fun i => inject_Z k * q i)%Q).
Proof.
  intros (Hd & x & V & HX). eapply gives_conv; [| |apply (vmap_chk (fun a => a * k) (num v) n x V)].
  - intros u (U & HU). apply (is_rv_intro u _ n _ _ U); [auto|]. intros i Hi. split; auto. inj. rewrite (proj2 (HX i Hi)). ring.
  - intros e (-> & i & Hi & N). split; auto. exists i. split; auto. rewrite (holds_iff _ _ (x i * k)%Z); auto.
    inj. rewrite (proj2 (HX i Hi)). ring.
Qed.
Lemma quot64 d k : 0 < d < 2 ^ 63 -> k <> 0 -> in64 (Z.quot d k).
Proof.
  intros Hd Hk. assert (Z.abs (Z.quot d k) <= Z.abs d).
  { rewrite <- (Z.quot_abs d k) by auto. rewrite Z.quot_div_nonneg by lia. apply Z.div_le_upper_bound; nia. }
  unfold in64. lia.
Qed.
Theorem mul_n_ok v n q k : is_rv v n q -> - 2 ^ 63 < k < 2 ^ 63 ->
  gives (rv_mul_n v k) (fun r => is_rv r n (fun i => inject_Z k * q i)%Q)
    (fun e => e = Overflow /\ exists i, (i < n)%nat /\ (~ holds (den v) (inject_Z k * q i)%Q \/ k < 0 /\ (k | den v) /\ ~ holds (den v) (- q i)%Q)).
Proof.
  intros HV Hk. pose proof HV as (Hd & x & V & HX). unfold rv_mul_n.
  eapply gives_bind with (P := fun b => b = true <-> k <> 0 /\ (k | den v)).
  - destruct (Z.eqb_spec k 0) as [->|N].
    + apply gives_ok. split; [discriminate|]. intros (H & _). congruence.
    + unfold crem. rewrite s64_small by lia. destruct (Z.eqb_spec k 0); [lia|].
      eapply gives_bind with (P := fun r => r = Z.rem (den v) k).
      { eapply gives_bind; [apply (chk64 _ (fun _ => True)); auto; intros H; exfalso; apply H, quot64; auto|]. intros _ _. apply gives_ok; auto. }
      intros r ->. apply gives_ok. rewrite Z.eqb_eq. rewrite Z.rem_divide by auto. tauto.
  - intros b Hb. destruct b.
    + destruct (proj1 Hb eq_refl) as (K0 & (c & Ec)). destruct (Z.ltb_spec 0 k).
      * apply gives_ok. assert (den v / k = c) by (rewrite Ec; apply Z.div_mul; lia). rewrite H0.
        apply (is_rv_intro _ _ n x _ V); [rewrite Ec in Hd; nia|]. intros i Hi. destruct (HX i Hi) as (B & Q1). split; auto. rewrite Q1, Ec. inj. ring.
      * eapply gives_bind; [eapply gives_conv; [intros u H0; exact H0| |apply (vmap_chk Z.opp (num v) n x V)]|].
        -- intros e (-> & i & Hi & N). split; auto. exists i. split; auto. right. split; [lia|]. split; [exists c; auto|]. rewrite (holds_iff _ _ (- x i)%Z); auto. inj. rewrite (proj2 (HX i Hi)). ring.
        -- intros u (U & HU). eapply gives_bind; [apply (chk64 _ (fun m => m = - k)); [auto|]; intros H0; exfalso; apply H0; unfold in64; lia|]. intros m ->.
           apply gives_ok. assert (den v / - k = - c) by (rewrite Ec, Z.div_opp_r_z by (try apply Z.mod_mul; lia); rewrite Z.div_mul by lia; reflexivity). rewrite H0.
           apply (is_rv_intro _ _ n _ _ U); [rewrite Ec in Hd; nia|]. intros i Hi. destruct (HX i Hi) as (B & Q1). split; auto. inj. rewrite Q1, Ec. inj. ring.
    + eapply gives_bind; [eapply gives_conv; [intros u H0; exact H0| |apply (scale_ok v n q k HV)]|].
      * intros e (-> & i & Hi & N). split; auto. exists i; auto.
      * intros u H. apply gives_ok. exact H.
Qed.
Theorem div_n_ok v n q k : is_rv v n q -> k <> 0 -> den v * Z.abs k < 2 ^ 63 ->
  gives (rv_div_n v k) (fun r => is_rv r n (fun i => q i / inject_Z k)%Q /\ den r = den v * Z.abs k)
    (fun e => k < 0 /\ unfit n (den v) (fun i => - q i)%Q e).
Proof.
  intros HV K0 Hk. pose proof HV as (Hd & x & V & HX). unfold rv_div_n. pose proof (inj_neq0 k K0) as NK. destruct (Z.ltb_spec 0 k).
  - apply gives_ok. cbn [den]. rewrite Z.abs_eq in * by lia. rewrite u64_pos by nia. split; auto.
    apply (is_rv_intro _ _ n x _ V); [nia|]. intros i Hi. destruct (HX i Hi) as (B & Q1). split; auto. rewrite Q1. inj. field; auto.
  - assert (E : u64 (den v * u64 (- u64 k)) = den v * - k).
    { assert (u64 (- u64 k) = - k).
      { transitivity (u64 (- k)); [|apply u64_pos; nia]. unfold u64.
        rewrite <- (Z.sub_0_l (k mod W64)), Zminus_mod_idemp_r. reflexivity. }
      rewrite H0. apply u64_pos. rewrite Z.abs_neq in * by lia. nia. }
    rewrite E. rewrite Z.abs_neq in * by lia.
    eapply gives_bind; [eapply gives_conv; [intros u H0; exact H0| |apply (vmap_chk Z.opp (num v) n x V)]|].
    + intros e (-> & i & Hi & N). split; [lia|]. split; auto. exists i. split; auto. rewrite (holds_iff _ _ (- x i)%Z); auto. inj. rewrite (proj2 (HX i Hi)). ring.
    + intros u (U & HU). apply gives_ok. cbn [den]. split; auto. apply (is_rv_intro _ _ n _ _ U); [nia|]. intros i Hi. destruct (HX i Hi) as (B & Q1). split; auto.
      inj. rewrite Q1. field; auto.
Qed.
Theorem mod_n_ok v n q k : is_rv v n q -> k <> 0 -> den v * Z.abs k < 2 ^ 63 ->
  gives (rv_mod_n v k) (fun r => den r = den v /\ exists p, is_rv r n p /\
      forall i, (i < n)%nat -> (0 <= p i < inject_Z (Z.abs k))%Q /\ exists z, (q i == p i + inject_Z z * inject_Z k)%Q) never.
Proof.
  intros (Hd & x & V & HX) K0 Hk. unfold rv_mod_n. set (m := den v * Z.abs k) in *. assert (0 < m) by (unfold m; nia).
  eapply gives_bind; [apply (chk64 _ (fun a => a = Z.abs k)); [auto|]; intros H0; apply H0; unfold in64, m in *; nia|]. intros a ->. fold m.
  rewrite u64_pos by lia.
  eapply gives_bind with (P := fun u => is_vec u n (fun i => x i mod m)).
  - eapply gives_conv; [| |apply (vmap_part (E := never) (fun x => of_option (remainder x (s64 m))) (fun a b => in64 a -> b = a mod m) (num v) n x)].
    + intros u (y & U & Hy). eapply is_vec_ext; [exact U|]. intros i Hi. apply Hy; auto. apply HX; auto.
    + auto.
    + intros i Hi. destruct (HX i Hi) as (B & _). rewrite remainder_exact by (auto; big; lia). cbn. intros _. apply s64_small.
      pose proof (Z.mod_pos_bound (x i) m ltac:(lia)). big; lia.
    + exact V.
  - intros u U. apply gives_ok. cbn [den]. split; auto. exists (fun i => inject_Z (x i mod m) / inject_Z (den v))%Q. split.
    + apply (is_rv_intro _ _ n _ _ U); auto. intros i Hi. split; [unfold in64; pose proof (Z.mod_pos_bound (x i) m ltac:(lia)); lia|]. field. apply inj_neq0; lia.
    + intros i Hi. destruct (HX i Hi) as (B & Q1). pose proof (Z.mod_pos_bound (x i) m ltac:(lia)) as MB.
      assert (DP : (0 < inject_Z (den v))%Q) by (change 0%Q with (inject_Z 0); rewrite <- Zlt_Qlt; lia). split; [split|].
      * apply Qle_shift_div_l; auto. rewrite Qmult_0_l. change 0%Q with (inject_Z 0). rewrite <- Zle_Qle. lia.
      * apply Qlt_shift_div_r; auto. rewrite <- inject_Z_mult, <- Zlt_Qlt. unfold m in *. lia.
      * exists (Z.sgn k * (x i / m)). pose proof (Z.div_mod (x i) m ltac:(lia)) as DM.
        apply (Qmult_inj_r _ _ (inject_Z (den v))); [apply inj_neq0; lia|]. rewrite <- Q1.
        transitivity (inject_Z (x i mod m) + inject_Z (Z.sgn k * (x i / m)) * inject_Z k * inject_Z (den v))%Q; [|field; apply inj_neq0; lia].
        rewrite <- !inject_Z_mult, <- inject_Z_plus. replace (x i mod m + Z.sgn k * (x i / m) * k * den v) with (x i); [reflexivity|].
        rewrite DM at 1. unfold m at 1. rewrite <- (Z.sgn_abs k) at 1. ring.
Qed.
