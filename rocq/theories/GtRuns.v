(** Global Tits groups: the loops, on numbers. *)

From Coq Require Import List Arith ZArith QArith Qabs Qfield Bool Lia Lqa.
From Verif Require Import RootModel.
From Verif Require Import WeylModel WeylSpec WeylTable WeylGroup WeylOps WeylMore WeylMake WeylExt.
From Verif Require Import BitsModel VecModel RunModel RunProofs MatModel MatSpec MatProofs MatOps MatArith MatDiv MatLin ArithModel ArithSpec ArithProofs ArithRat
  RatVecModel RatVecSpec RatVecProofs RatVecOps RatVecMore RatVecProps RootSpec RootForm DatModel DatSpec DatProofs DatOps DatMats DatProps YvModel YvSpec YvProofs YvOps YvAct GtModel GtSpec.
Import ListNotations.
Open Scope nat_scope.

Lemma each_run {A X} (E : err -> Prop) (I : list A -> X -> Prop) (l : list A) (f : A -> X -> res X) x :
  I [] x -> (forall pre a post y, l = pre ++ a :: post -> I pre y -> gives (f a y) (I (pre ++ [a])) E) -> gives (each_comp l f x) (I l) E.
Proof.
  unfold each_comp. revert x I. induction l as [|a l IH] using rev_ind; intros x I H0 HS.
  - exact H0.
  - rewrite fold_left_app. cbn [fold_left]. eapply gives_bind.
    + apply (IH x I H0). intros pre b post y EL HI. apply (HS pre b (post ++ [a])); auto. rewrite EL, <- app_assoc. reflexivity.
    + intros y HI. apply (HS l a []); auto.
Qed.

Section Act.
Variables (n : nat) (C : nat -> nat -> Z) (comps : list component) (W : weyl_group).
Hypothesis D : describes n C comps.
Hypothesis RM : n <= rank_max.
Hypothesis MK : make_weyl n comps = Ok W.
Notation GG := (G n C comps W D RM MK).
Lemma weyl_act_ev {X} (P : list nat -> X -> Prop) E (rf : nat -> X -> res X) w x : valid n W w -> P [] x ->
  (forall u y s, s < n -> over n u -> P u y -> gives (rf s y) (P (s :: u)) E) ->
  gives (weyl_act W rf w x) (P (map (outp comps) (ev n (off comps) W w))) E.
Proof.
  intros V H0 HS. pose proof V as [VL VS]. unfold weyl_act. rewrite (rank_is n C comps W D RM MK).
  assert (OV : forall k, k <= n -> over n (map (outp comps) (evr (off comps) W w k (n - k)))).
  { intros k Hk. apply (outp_over n C comps D RM). intros s Hs. apply (ev_over n (inner_matrix C comps) (off comps) (up comps) W GG w V).
    unfold ev. replace n with (k + (n - k)) by lia. rewrite evr_app. apply in_app_iff. right. exact Hs. }
  eapply (gives_downto (fun k y => P (map (outp comps) (evr (off comps) W w k (n - k))) y)).
  - rewrite Nat.sub_diag. exact H0.
  - intros i y Hi HP. rewrite (vget_at w i 0) by lia. cbn [bind]. rewrite (tr_get n _ _ _ W GG) by lia. cbn [bind]. set (a0 := nth i w 0).
    assert (Hx : a0 < tr_size (trn W i)) by now apply VS. rewrite (letters_ok _ _ (gg_table _ _ _ _ _ GG i Hi)) by auto. cbn [bind].
    assert (EV : evr (off comps) W w i (n - i) = pw (off comps) W i a0 ++ evr (off comps) W w (S i) (n - S i)).
    { replace (n - i) with (1 + (n - S i)) by lia. rewrite evr_app, Nat.add_1_r, evr_S, Nat.add_0_r. reflexivity. }
    pose proof (OV i ltac:(lia)) as OI. rewrite EV in OI |- *. rewrite map_app in OI |- *.
    eapply gives_mono; [apply (each_run _ (fun pre y => P (map (outp comps) (map (fun s => off comps i + s) (rev pre)) ++ map (outp comps) (evr (off comps) W w (S i) (n - S i))) y))|].
    + exact HP.
    + intros pre g post z EP HZ. destruct (pw_local n _ _ _ W GG i a0 g Hi Hx) as (A1 & _); [apply in_rev; rewrite EP; apply in_app_iff; right; now left|].
      unfold output_local_gen. rewrite (tr_get n _ _ _ W GG) by lia. cbn [bind]. rewrite (gg_offset _ _ _ _ _ GG i Hi), (Nat.add_comm g).
      rewrite (out_get n C comps W D RM MK) by lia. cbn [bind]. eapply gives_mono; [apply HS; [| |exact HZ]|].
      * apply (outp_lt n C comps D RM). lia.
      * intros s Hs. apply OI. apply in_app_iff in Hs as [Hs|Hs]; [apply in_app_iff; left|apply in_app_iff; right; exact Hs].
        unfold pw. apply in_map_iff in Hs as (a & <- & Ha). apply in_map_iff. exists a. split; auto. apply in_map_iff in Ha as (b & <- & Hb). apply in_map_iff. exists b. split; auto.
        apply in_rev. rewrite EP. apply in_app_iff. left. apply in_rev. rewrite <- in_rev. apply in_rev. exact Hb.
      * intros z' HZ'. rewrite rev_app_distr. cbn [rev app map]. exact HZ'.
    + intros z HZ. rewrite rev_involutive in HZ. exact HZ.
  - intros y HP. rewrite Nat.sub_0_r in HP. exact HP.
Qed.
End Act.

Definition ovf (e : err) : Prop := e = Overflow.
Lemma to_ovf {A} (m : res A) P (E : err -> Prop) : (forall e, E e -> e = Overflow) -> gives m P E -> gives m P ovf.
Proof. intros H G0. eapply gives_conv; [| |exact G0]; auto. Qed.

(** * torus elements, reduced or not *)
Open Scope Z_scope.
Lemma to_int_id z : - 2 ^ 31 <= z < 2 ^ 31 -> to_int z = z.
Proof. intros H. unfold to_int. rewrite Z.mod_small by lia. lia. Qed.
Lemma sized_at M t r x : sized_by M t -> is_vec (num t) r x -> forall i, (i < r)%nat -> Z.abs (x i) <= M.
Proof. intros [_ H] V i Hi. apply H. apply (in_get _ _ _ _ V). eauto. Qed.
Lemma sum_bound n y x D : 0 <= D -> (forall i, (i < n)%nat -> Z.abs (x i) <= D) -> zsum n (fun i => Z.abs (y i * x i)) <= zsum n (fun i => Z.abs (y i)) * D.
Proof.
  intros HD H. unfold zsum. induction n; [cbn; lia|]. cbn [fsum]. specialize (IHn ltac:(intros; apply H; lia)). specialize (H n ltac:(lia)).
  rewrite Z.mul_add_distr_r. assert (Z.abs (y n * x n) <= Z.abs (y n) * D); [rewrite Z.abs_mul; nia|lia].
Qed.
Lemma te_add_rv t u r p q k M : is_rv t r p -> is_torus u r q -> 0 < k -> (den u | k * den t) -> sized_by M t -> k * M < 2 ^ 60 ->
  gives (te_add t u) (fun v => is_exp v r (fun i => p i + q i)%Q /\ sized_by (2 * k * M) v /\ (den v | k * den t)) never.
Proof.
  intros RT HU Hk DU SM HM. pose proof RT as (Dt & x & Vx & HX). pose proof (sized_at M t r x SM Vx) as BX. destruct SM as [SD _].
  destruct HU as (q' & RU & HQ). pose proof RU as (Du & y & Vy & HY).
  assert (BY : forall i, (i < r)%nat -> 0 <= y i <= 2 * den u).
  { intros i Hi. destruct (HY i Hi) as (_ & E). destruct (HQ i Hi) as ((B1 & B2) & _).
    assert (DP : (0 < inject_Z (den u))%Q) by (change 0%Q with (inject_Z 0); rewrite <- Zlt_Qlt; lia). split.
    - rewrite Zle_Qle, E. apply Qmult_le_0_compat; [auto|apply Qlt_le_weak; auto].
    - rewrite Zle_Qle, E, inject_Z_mult. apply Qmult_le_compat_r; [apply Qlt_le_weak; exact B2|apply Qlt_le_weak; auto]. }
  set (m := Z.lcm (den t) (den u)). assert (DM : (m | k * den t)) by (apply Z.lcm_least; [exists k; ring|exact DU]).
  assert (Pm : 0 < m). { unfold m. pose proof (Z.lcm_nonneg (den t) (den u)). assert (Z.lcm (den t) (den u) <> 0) by (intros E0; apply Z.lcm_eq_0 in E0; lia). lia. }
  pose proof (Z.divide_pos_le m (k * den t) ltac:(apply Z.mul_pos_pos; lia) DM) as Lm.
  destruct (Z.divide_lcm_l (den t) (den u)) as (a & Ea). destruct (Z.divide_lcm_r (den t) (den u)) as (b & Eb). fold m in Ea, Eb. assert (0 < a) by nia. assert (0 < b) by nia. assert (a <= k) by nia.
  assert (K : forall i, (i < r)%nat -> (inject_Z (x i * a + y i * b) == (inject_Z 1 * p i + inject_Z 1 * q' i) * inject_Z m)%Q /\ Z.abs (x i * a + y i * b) <= 2 * k * M).
  { intros i Hi. split.
    - rewrite inject_Z_plus, !inject_Z_mult, (proj2 (HX i Hi)), (proj2 (HY i Hi)), Qmult_plus_distr_l. change (inject_Z 1) with 1%Q. apply Qplus_comp.
      + rewrite Ea, inject_Z_mult. ring.
      + rewrite Eb, inject_Z_mult. ring.
    - specialize (BX i Hi). specialize (BY i Hi). assert (0 <= y i * b <= 2 * m) by (rewrite Eb; nia). assert (2 * m <= k * M) by nia. assert (Z.abs (x i * a) <= k * M) by (rewrite Z.abs_mul, (Z.abs_eq a) by lia; nia). lia. }
  assert (RF : is_rv (mk_rv (map (fun i => x i * a + y i * b) (seq 0 r)) m) r (fun i => inject_Z 1 * p i + inject_Z 1 * q' i)%Q).
  { apply (is_rv_intro _ _ r _ _ (vec_of _ r)); [nia|]. intros i Hi. destruct (K i Hi) as (K1 & K2). split; [unfold in64; nia|exact K1]. }
  unfold te_add, rv_add. eapply gives_bind; [eapply gives_conv; [| |apply (combine_ok Z.add 1 1 t u r p q')]|].
  - intros v Hv. exact Hv.
  - intros e (-> & i & Hi & E). exfalso. destruct (K i Hi) as (K1 & K2). fold m in E. rewrite <- K1 in E. apply inj_inj in E. nia.
  - intros c d. lia.
  - exact RT.
  - exact RU.
  - fold m. nia.
  - intros i Hi. fold m. exists (x i * a + y i * b). destruct (K i Hi) as (K1 & K2). split; [unfold in64; nia|exact K1].
  - intros v (RV1 & RV2). assert (Dv : (den v | m)) by (apply (reduced_divides v _ r _ _ RV1 RF RV2); intros i Hi; exists 0; ring).
    pose proof (Z.divide_pos_le _ _ Pm Dv) as Lv. pose proof RV1 as (D0 & z & Vz & HZ).
    assert (BZ : forall i, (i < r)%nat -> Z.abs (z i) <= 2 * k * M).
    { intros i Hi. destruct (K i Hi) as (K1 & K2). destruct (HZ i Hi) as (_ & E). destruct Dv as (c & Ec). assert (0 < c) by nia.
      assert (z i * c = x i * a + y i * b). { apply inj_inj. rewrite K1, inject_Z_mult, E, Ec, inject_Z_mult. ring. }
      assert (Z.abs (z i) <= Z.abs (z i * c)) by (rewrite Z.abs_mul, (Z.abs_eq c) by lia; nia). lia. }
    eapply gives_bind; [eapply gives_conv; [intros d Hd; exact Hd| |apply (twice_run v D0)]|]; [intros e (_ & H3); exfalso; nia|]. intros d (-> & _).
    eapply gives_bind; [apply (vmap_part (E := never) _ (fun c e => e = c \/ e = c - 2 * den v /\ 2 * den v <= c) (num v) r z); [|exact Vz]|].
    + intros i Hi. specialize (BZ i Hi). destruct (Z.leb_spec (2 * den v) (z i)); [|left; reflexivity]. unfold chkz. rewrite (proj2 (fits64_iff _)) by (unfold in64; nia). right. split; [reflexivity|lia].
    + intros l (w & Vl & Hw). cbn [gives]. assert (BW : forall i, (i < r)%nat -> Z.abs (w i) <= 2 * k * M) by (intros i Hi; specialize (BZ i Hi); destruct (Hw i Hi) as [-> | [-> ?]]; lia). split; [|split].
      * exists (fun i => inject_Z (w i) / inject_Z (den v))%Q. split.
        -- apply (is_rv_intro _ _ r _ _ Vl); [exact D0|]. intros i Hi. specialize (BW i Hi). split; [unfold in64; nia|]. field. apply inj_neq0. lia.
        -- intros i Hi. destruct (HZ i Hi) as (_ & E). destruct (HQ i Hi) as (_ & c & Ec). assert (Ei : (inject_Z (z i) / inject_Z (den v) == p i + q' i)%Q) by (rewrite E; change (inject_Z 1) with 1%Q; field; apply inj_neq0; lia).
           destruct (Hw i Hi) as [-> | [-> _]].
           ++ exists c. rewrite Ei, <- Ec. ring.
           ++ exists (c - 1). transitivity ((inject_Z (z i) / inject_Z (den v)) - 2 - (p i + q i))%Q; [unfold Z.sub at 1; rewrite inject_Z_plus, inject_Z_opp, (inject_Z_mult 2 (den v)); change (inject_Z 2) with 2%Q; field; apply inj_neq0; lia|].
              rewrite Ei. replace (2 * (c - 1)) with (2 * c + - (2)) by ring. rewrite inject_Z_plus, <- Ec. change (inject_Z (- (2))) with (- (2))%Q. ring.
      * split; [cbn [den]; nia|]. cbn [num]. intros e He. apply (in_get _ _ _ _ Vl) in He as (i & Hi & <-). apply BW; auto.
      * cbn [den]. eapply Z.divide_trans; [exact Dv|exact DM].
Qed.
Lemma dot_small narrow v n x c y M : (forall z, Z.abs z < 2 ^ 31 -> narrow z = z) -> is_vec v n x -> is_vec c n y -> 0 <= M -> (forall i, (i < n)%nat -> Z.abs (x i) <= M) ->
  zsum n (fun i => Z.abs (y i)) * M < 2 ^ 31 -> dot_into fits64 narrow v c = Ok (zsum n (fun i => y i * x i)).
Proof.
  intros Hn Vx Vy HM HX HB. unfold dot_into. rewrite (proj1 Vx).
  assert (G0 : gives (upto n 0 (fun i c0 => run x0 <- vget v i; run y0 <- vget c i; run p <- chkz fits64 (x0 * y0); run s <- chkz fits64 (c0 + p); Ok (narrow s)) 0) (eq (zsum n (fun i => y i * x i))) never).
  { apply (gives_upto0 (fun k s => s = zsum k (fun i => y i * x i))).
    - reflexivity.
    - intros k s Hk ->. unfold vget. rewrite (proj2 Vx k Hk), (proj2 Vy k Hk). cbn [bind].
      assert (B0 : Z.abs (zsum k (fun i => y i * x i)) <= zsum k (fun i => Z.abs (y i)) * M).
      { eapply Z.le_trans; [apply zsum_abs|]. apply sum_bound; [auto|]. intros i Hi. apply HX. lia. }
      assert (LE : zsum (S k) (fun i => Z.abs (y i)) <= zsum n (fun i => Z.abs (y i))) by (apply zsum_le; [lia|intros; lia]).
      change (zsum (S k) ?f) with (zsum k f + f k) in LE. cbn beta in LE. pose proof (HX k Hk).
      assert (B2 : Z.abs (x k * y k) <= Z.abs (y k) * M) by (rewrite Z.abs_mul; nia).
      assert (T0 : Z.abs (zsum k (fun i => y i * x i) + x k * y k) < 2 ^ 31) by nia.
      assert (T2 : Z.abs (x k * y k) < 2 ^ 31) by (assert (0 <= zsum k (fun i => Z.abs (y i))) by (apply (zsum_le 0 k); [lia|intros; lia]); nia).
      unfold chkz. rewrite (proj2 (fits64_iff (x k * y k))) by (unfold in64; lia). cbn [bind].
      rewrite (proj2 (fits64_iff (_ + _))) by (unfold in64; lia). cbn [bind gives]. rewrite Hn by exact T0.
      change (zsum (S k) ?f) with (zsum k f + f k). cbn beta. lia.
    - auto. }
  destruct (upto _ _ _ _); [|contradiction]. cbn in G0. subst. reflexivity.
Qed.
Lemma central_rv narrow alpha t n m f q M : (forall z, Z.abs z < 2 ^ 31 -> narrow z = z) -> is_exp t n q -> is_mx alpha n m f -> sized_by M t -> den t < 2 ^ 62 ->
  (forall j, (j < m)%nat -> zsum n (fun i => Z.abs (f i j)) * M < 2 ^ 31) ->
  gives (is_central narrow alpha t) (fun b => b = true <-> forall j, (j < m)%nat -> even_apart (pairQ n (fun i => f i j) q) 0) never.
Proof.
  intros Hn (p & RP & HP) HA SM Dt HB. pose proof RP as (D0 & x & Vx & HX). pose proof (sized_at M t n x SM Vx) as BX. pose proof (proj1 SM) as SD. unfold is_central, twice_den, rv_denominator. rewrite s64_small by lia.
  unfold chkz at 1. rewrite (proj2 (fits64_iff _)) by (unfold in64; lia). cbn [bind]. rewrite (is_mx_cols _ _ _ _ HA).
  assert (G0 : forall k s, (s + k = m)%nat -> gives (central_from narrow alpha (num t) (2 * den t) k s)
    (fun b => b = true <-> forall j, (s <= j < m)%nat -> even_apart (pairQ n (fun i => f i j) q) 0) never).
  { induction k as [|k IH]; intros s Hs; cbn [central_from].
    - cbn [gives]. split; [intros _ j Hj; lia|reflexivity].
    - eapply gives_bind; [apply (MatOps.column_ok 0 alpha n m f s HA); lia|]. intros c Vc.
      rewrite (dot_small narrow (num t) n x c (fun i => f i s) M Hn Vx Vc ltac:(lia) BX (HB s ltac:(lia))).
      cbn [bind]. set (v := zsum n (fun i => f i s * x i)). assert (Ev : (inject_Z v == pairQ n (fun i => f i s) p * inject_Z (den t))%Q) by (apply (pair_num n (fun i => f i s)); intros i Hi; apply HX; auto).
      assert (K : Z.rem v (2 * den t) = 0 <-> even_apart (pairQ n (fun i => f i s) q) 0).
      { rewrite Z.rem_divide by lia. assert (PE : even_apart (pairQ n (fun i => f i s) p) (pairQ n (fun i => f i s) q)) by (apply pair_even; intros i Hi; apply HP; auto).
        split.
        - intros (z & Ez). eapply even_trans; [apply even_sym; exact PE|]. exists z. rewrite Ez in Ev. apply (Qmult_inj_r _ _ (inject_Z (den t))); [apply inj_neq0; lia|].
          transitivity (pairQ n (fun i => f i s) p * inject_Z (den t))%Q; [ring|]. rewrite <- Ev, <- inject_Z_mult. apply inject_Z_injective. ring.
        - intros E0. destruct (even_trans _ _ _ PE E0) as (z & Ez). exists z. apply inj_inj. rewrite Ev. transitivity (inject_Z (2 * z) * inject_Z (den t))%Q; [rewrite <- Ez; ring|].
          rewrite <- inject_Z_mult. apply inject_Z_injective. ring. }
      assert (Bv : Z.abs v < 2 ^ 31).
      { eapply Z.le_lt_trans; [apply zsum_abs|]. eapply Z.le_lt_trans; [|apply (HB s); lia]. apply (sum_bound n (fun i => f i s) x); [lia|exact BX]. }
      assert (CR : crem fits64 v (2 * den t) = Ok (Z.rem v (2 * den t))).
      { unfold crem. destruct (Z.eqb_spec (2 * den t) 0); [lia|]. unfold chkz. rewrite (proj2 (fits64_iff _)); [reflexivity|].
        assert (Z.abs (Z.quot v (2 * den t)) <= Z.abs v). { rewrite <- Z.quot_abs by lia. rewrite (Z.abs_eq (2 * den t)) by lia. rewrite Z.quot_div_nonneg by lia. apply Z.div_le_upper_bound; nia. }
        unfold in64. lia. }
      rewrite CR. cbn [bind]. destruct (Z.eqb_spec (Z.rem v (2 * den t)) 0) as [E0|E0]; cbn [negb].
      + eapply gives_mono; [apply (IH (S s)); lia|]. intros b Hb. rewrite Hb. split.
        * intros H j Hj. destruct (Nat.eq_dec j s) as [->|]; [apply K; auto|apply H; lia].
        * intros H j Hj. apply H. lia.
      + cbn [gives]. split; [discriminate|]. intros H. exfalso. apply E0, K, H. lia. }
  eapply gives_mono; [apply (G0 m 0%nat); lia|]. intros b Hb. rewrite Hb. split; intros H j Hj; apply H; lia.
Qed.
Lemma eval_rv t n p alpha y : is_rv t n p -> is_vec alpha n y -> den t < 2 ^ 62 -> gives (eval_at t alpha) (fun r => is_mod2 r (pairQ n y p)) ovf.
Proof.
  intros (D0 & x & Vx & HX) Va Dt. unfold eval_at.
  eapply gives_bind; [eapply gives_conv; [intros s Hs; exact Hs| |apply (dot64 alpha (num t) n y x Va Vx)]|].
  - intros e (-> & _). reflexivity.
  - intros s (-> & Bs). eapply gives_conv; [| |apply (value_ok t _ (pairQ n y p))].
    + auto.
    + intros e [].
    + lia.
    + exact Bs.
    + apply pair_num. intros i Hi. apply HX; auto.
Qed.
Lemma negative_rv t n q alpha y z : is_exp t n q -> is_vec alpha n y -> (pairQ n y q == inject_Z z)%Q ->
  gives (negative_at t alpha) (fun b => b = Z.odd z) ovf.
Proof.
  intros (p & RP & HP) Va Ez. unfold negative_at. destruct (pair_even n y p q HP) as (w & Ew).
  assert (E : (qsum n (fun i => inject_Z (y i) * p i) == inject_Z (z + 2 * w))%Q) by (fold (pairQ n y p); rewrite inject_Z_plus, <- Ew, <- Ez; ring).
  eapply gives_bind; [eapply gives_conv; [| |apply (dot_ok t n p alpha y (z + 2 * w) RP Va E)]|].
  - intros c Hc. exact Hc.
  - intros e (-> & _). reflexivity.
  - intros c0 ->. cbn [gives]. replace (Z.odd z) with (Z.odd (z + 2 * w)) by (rewrite Z.odd_add, Z.odd_mul, xorb_false_r; reflexivity).
    set (c := z + 2 * w). rewrite Zodd_mod. pose proof (Z.rem_divide c 2 ltac:(lia)). pose proof (Z.mod_divide c 2 ltac:(lia)). pose proof (Z.mod_pos_bound c 2 ltac:(lia)).
    unfold Zeq_bool. destruct (Z.eqb_spec (Z.rem c 2) 0) as [R0|R0]; [assert (c mod 2 = 0) by tauto|assert (c mod 2 <> 0) by tauto]; destruct (Z.compare_spec (c mod 2) 1); cbn [negb]; try reflexivity; exfalso; lia.
Qed.
(** exp of 2 pi i times a vector with even denominator *)
Lemma exp_half l d r x : is_vec l r x -> 0 < d < 2 ^ 61 -> (forall i, (i < r)%nat -> in64 (x i)) ->
  gives (run v <- rv_make l (2 * d); exp_2pi v) (fun u => is_torus u r (fun i => inject_Z (x i) / inject_Z d)%Q /\ den u = d) never.
Proof.
  intros V Hd HX. assert (E1 : rv_make l (2 * d) = Ok (mk_rv l (2 * d))).
  { unfold rv_make. rewrite Z.abs_eq by lia. unfold chkz. rewrite (proj2 (fits64_iff _)) by (unfold in64; lia). cbn [bind]. destruct (Z.ltb_spec (2 * d) 0); [lia|]. reflexivity. }
  assert (E2 : rv_mul_n (mk_rv l (2 * d)) 2 = Ok (mk_rv l d)).
  { unfold rv_mul_n. cbn [num den Z.eqb]. rewrite s64_small by lia. unfold crem, chkz. cbn [Z.eqb]. rewrite (proj2 (fits64_iff _)).
    - cbn [bind]. rewrite (proj2 (Z.rem_divide (2 * d) 2 ltac:(lia))) by (exists d; ring). cbn [Z.eqb]. change (0 <? 2) with true. cbn iota. rewrite Z.mul_comm, Z.div_mul by lia. reflexivity.
    - rewrite Z.mul_comm, Z.quot_mul by lia. unfold in64. lia. }
  rewrite E1. cbn [bind]. unfold exp_2pi, te_make. rewrite E2. eapply gives_conv; [| |apply (make_false (mk_rv l d) r (fun i => inject_Z (x i) / inject_Z d)%Q)].
  - intros u (H1 & H2). split; [exact H1|exact H2].
  - intros e (_ & H). cbn [den] in H. lia.
  - apply (is_rv_intro _ _ r _ _ V); [lia|]. intros i Hi. split; [auto|]. field. apply inj_neq0. lia.
Qed.
Lemma scale_int v c n x : is_vec v n x -> gives (vec_scale (zarith fits_int) v c) (fun u => exists y, is_vec u n y /\ forall i, (i < n)%nat -> y i = x i * c /\ - 2 ^ 31 <= y i < 2 ^ 31) ovf.
Proof.
  intros V. apply (vmap_part (E := ovf) _ (fun a b => b = a * c /\ - 2 ^ 31 <= b < 2 ^ 31) v n x); [|exact V]. intros i Hi. cbn [amul zarith]. unfold chkz.
  destruct (fits_int (x i * c)) eqn:E; cbn [gives]; [|reflexivity]. split; [reflexivity|]. unfold fits_int in E. apply andb_true_iff in E. lia.
Qed.
Lemma lowest_den e q d z : lowest e -> (ratval e == q)%Q -> 0 < d -> (q * inject_Z d == inject_Z z)%Q -> (rden e | d).
Proof.
  intros (_ & P & G0) E Hd Ez. apply (Z.gauss _ (rnum e)); [|rewrite Z.gcd_comm; exact G0]. exists z. apply inj_inj. rewrite !inject_Z_mult, <- Ez, <- E. unfold ratval. field. apply inj_neq0. lia.
Qed.
Lemma imaginary_run G r n A B s t p M : is_mx (p_roots (gt_prd G)) r n A -> is_mx (p_coroots (gt_prd G)) r n B -> (s < n)%nat -> is_rv t r p ->
  sized_by M t -> M < 2 ^ 60 -> den t < 2 ^ 31 \/ (exists z, rootQ r B s p == inject_Z z)%Q ->
  gives (imaginary_cross_act G s t) (fun u => is_exp u r (fun i => reflQ r A B s p i + inject_Z (A i s))%Q /\ sized_by (2 * M) u) ovf.
Proof.
  intros HA HB Hs RT SM HM NR. pose proof RT as (Dt & x & Vx & HX). pose proof SM as [SD SX]. unfold imaginary_cross_act, p_coroot, p_root.
  eapply gives_bind; [apply (column_ok 0 _ r n B s HB Hs)|]. intros c Vc.
  eapply gives_bind; [apply (eval_rv t r p c _ RT Vc); lia|]. fold (rootQ r B s p). intros e (Le & Be & Ee).
  assert (DE : (rden e | den t)).
  { destruct Ee as (w & Ew). apply (lowest_den e (rootQ r B s p + inject_Z (2 * w))%Q (den t) (zsum r (fun i => B i s * x i) + 2 * w * den t) Le); [rewrite <- Ew; ring|lia|].
    rewrite inject_Z_plus, (pair_num r (fun i => B i s) x p (den t)), (inject_Z_mult (2 * w)); [unfold rootQ; ring|]. intros i Hi. apply HX; auto. }
  pose proof (Z.divide_pos_le _ _ (proj1 Dt) DE) as LE. pose proof Le as (S1 & P1 & G1).
  assert (NE : 0 <= rnum e < 2 * rden e).
  { assert (DP : (0 < inject_Z (rden e))%Q) by (change 0%Q with (inject_Z 0); rewrite <- Zlt_Qlt; lia). destruct Be as [B1 B2]. unfold ratval in B1, B2.
    assert (E0 : (inject_Z (rnum e) == inject_Z (rnum e) / inject_Z (rden e) * inject_Z (rden e))%Q) by (field; apply inj_neq0; lia). split.
    - rewrite Zle_Qle, E0. apply Qmult_le_0_compat; [exact B1|apply Qlt_le_weak; auto].
    - rewrite Zlt_Qlt, E0, inject_Z_mult. apply Qmult_lt_compat_r; auto. }
  destruct (rat_sub_correct e (mkr 1 1) Le) as (r0 & E1 & L0 & Q0); cbn [rnum rden].
  { split; [unfold sint; cbn; lia|]. split; [cbn; lia|reflexivity]. }
  { rewrite Z.lcm_1_r, Z.abs_eq by lia. lia. }
  { rewrite Z.lcm_1_r, Z.abs_eq by lia. rewrite Z.div_same by lia. unfold sint. lia. }
  { rewrite Z.lcm_1_r, Z.abs_eq by lia. rewrite Z.div_1_r. unfold sint. lia. }
  { rewrite Z.lcm_1_r, Z.abs_eq by lia. rewrite Z.div_same, Z.div_1_r by lia. unfold sint. lia. }
  cbn [rnum rden] in Q0. rewrite E1. cbn [of_neg bind]. pose proof L0 as (S0 & P0 & G0).
  assert (VR : (ratval r0 == ratval e - 1)%Q).
  { unfold ratval. apply (Qmult_inj_r _ _ (inject_Z (rden e * rden r0))); [apply inj_neq0; nia|]. rewrite !inject_Z_mult. transitivity (inject_Z (rnum r0 * (rden e * 1))); [rewrite !inject_Z_mult; field; apply inj_neq0; lia|].
    rewrite Q0. replace ((rnum e * 1 - 1 * rden e) * rden r0) with ((rnum e + - rden e) * rden r0) by ring. rewrite inject_Z_mult, inject_Z_plus, inject_Z_opp. field. apply inj_neq0. lia. }
  assert (D0 : (rden r0 | rden e)).
  { apply (lowest_den r0 _ (rden e) (rnum e - rden e) L0 VR ltac:(lia)). unfold Z.sub. rewrite inject_Z_plus, inject_Z_opp. unfold ratval. field. apply inj_neq0. lia. }
  pose proof (Z.divide_pos_le _ _ (proj1 P1) D0) as L1. assert (N0 : Z.abs (rnum r0) <= rden r0) by nia.
  assert (FIN : forall i, (i < r)%nat -> even_apart (p i - ratval r0 * inject_Z (A i s)) (reflQ r A B s p i + inject_Z (A i s))).
  { intros i Hi. destruct Ee as (w & Ew). exists (- w * A i s). unfold reflQ. rewrite VR. replace (2 * (- w * A i s)) with (- (2 * w) * A i s) by ring. rewrite inject_Z_mult, inject_Z_opp, <- Ew. ring. }
  destruct (Z.eqb_spec (rnum r0) 0) as [Z0|Z0].
  - cbn [gives]. split; [|split; [nia|intros y Hy; specialize (SX y Hy); lia]]. exists p. split; [exact RT|]. intros i Hi. eapply even_trans; [|apply (FIN i Hi)]. apply even_refl. unfold ratval. rewrite Z0. unfold Qdiv. change (inject_Z 0) with 0%Q. ring.
  - eapply gives_bind; [apply (column_ok 0 _ r n A s HA Hs)|]. intros a Va. unfold chkz at 1. rewrite (proj2 (fits64_iff _)) by (unfold in64; lia). cbn [bind].
    assert (TI : to_int (- rnum r0) = - rnum r0).
    { apply to_int_id. destruct NR as [NR|(z & Ez)]; [lia|]. destruct Ee as (w & Ew).
      assert (D1 : (rden r0 | 1)). { apply (lowest_den r0 _ 1 (z + 2 * w - 1) L0 VR ltac:(lia)). unfold Z.sub. rewrite !inject_Z_plus, <- Ez, <- Ew. change (inject_Z 1) with 1%Q. change (inject_Z (-(1))) with (- (1))%Q. ring. }
      apply Z.divide_1_r_nonneg in D1; lia. }
    rewrite TI. eapply gives_bind; [apply (scale_int a (- rnum r0) r _ Va)|]. intros v (y & Vv & Hy).
    rewrite s64_small by lia. unfold chkz. rewrite (proj2 (fits64_iff _)) by (unfold in64; lia). cbn [bind].
    pose proof (exp_half v (rden r0) r y Vv ltac:(lia) ltac:(intros i Hi; destruct (Hy i Hi); unfold in64; lia)) as GH.
    destruct (rv_make v (2 * rden r0)) as [v'|]; [|contradiction]. cbn [bind] in GH |- *. eapply gives_bind; [eapply gives_conv; [intros u Hu; exact Hu| |exact GH]|]; [intros e0 []|].
    intros u (TU & DU). eapply gives_conv; [| |apply (te_add_rv t u r p _ 1 M RT TU)].
    + intros u0 (H1 & H2 & _). split; [|exact H2]. destruct H1 as (p1 & R1 & H1). exists p1. split; [exact R1|]. intros i Hi. eapply even_trans; [apply (H1 i Hi)|]. eapply even_trans; [|apply (FIN i Hi)]. apply even_refl.
      rewrite (proj1 (Hy i Hi)). rewrite inject_Z_mult, inject_Z_opp. unfold ratval. field. apply inj_neq0. lia.
    + intros e0 [].
    + lia.
    + rewrite Z.mul_1_l, DU. eapply Z.divide_trans; eauto.
    + exact SM.
    + lia.
Qed.
Lemma inverse_run G r n A B s t p M : is_mx (p_roots (gt_prd G)) r n A -> is_mx (p_coroots (gt_prd G)) r n B -> (s < n)%nat -> is_rv t r p ->
  sized_by M t -> M < 2 ^ 60 -> zsum r (fun i => Z.abs (B i s)) * M < 2 ^ 31 ->
  gives (inverse_Cayley_torus G s t) (fun u => even_apart (rootQ r B s p) 0 /\ u = t \/
    ~ even_apart (rootQ r B s p) 0 /\ is_torus u r (fun i => p i - rootQ r B s p / 2 * inject_Z (A i s))%Q) ovf.
Proof.
  intros HA HB Hs RT SM HM HS. pose proof RT as (Dt & x & Vx & HX). pose proof (sized_at M t r x SM Vx) as BX. pose proof SM as [SD SX]. unfold inverse_Cayley_torus, p_coroot, p_root.
  eapply gives_bind; [apply (column_ok 0 _ r n B s HB Hs)|]. intros c Vc. unfold log_2pi.
  eapply gives_bind with (P := fun w => is_rv w r (fun i => p i / 2)%Q /\ (den w | 2 * den t)).
  { eapply gives_bind; [eapply gives_conv; [intros d Hd; exact Hd| |apply (twice_run t Dt)]|]; [intros e (-> & _); reflexivity|]. intros d (-> & Ld).
    eapply gives_bind; [eapply gives_conv; [intros v Hv; exact Hv| |apply (make_ok (num t) r x (2 * den t) Vx)]|].
    - intros e (-> & _). reflexivity.
    - intros i Hi. apply HX; auto.
    - lia.
    - lia.
    - intros v (RV1 & EN). rewrite Z.abs_eq in EN by lia. eapply gives_conv; [| |apply (normalize_ok v r _ RV1)].
      + intros w (H1 & H2 & H3). rewrite EN in H3. split; [|exact H3]. eapply is_rv_ext; [exact H1|]. intros i Hi. cbv beta. rewrite (proj2 (HX i Hi)), inject_Z_mult. change (inject_Z 2) with 2%Q. field. apply inj_neq0. lia.
      + intros e (-> & _). reflexivity. }
  intros w (RW & DW). pose proof RW as (D0 & y & Vy & HY). pose proof (Z.divide_pos_le (den w) (2 * den t) ltac:(lia) DW) as LW.
  assert (BY : forall i, (i < r)%nat -> Z.abs (y i) <= M).
  { intros i Hi. destruct DW as (k & Ek). assert (0 < k) by nia. assert (E : y i * k = x i).
    { apply inj_inj. rewrite inject_Z_mult, (proj2 (HY i Hi)), (proj2 (HX i Hi)). apply (Qmult_inj_r _ _ 2); [discriminate|]. transitivity (p i * (inject_Z k * inject_Z (den w)))%Q; [field|]. rewrite <- inject_Z_mult, <- Ek, inject_Z_mult. change (inject_Z 2) with 2%Q. ring. }
    specialize (BX i Hi). assert (Z.abs (y i) <= Z.abs (y i * k)) by (rewrite Z.abs_mul, (Z.abs_eq k) by lia; nia). lia. }
  set (z := zsum r (fun i => B i s * y i)).
  assert (BZ : Z.abs z < 2 ^ 31). { eapply Z.le_lt_trans; [apply zsum_abs|]. eapply Z.le_lt_trans; [apply (sum_bound r (fun i => B i s) y M); [lia|exact BY]|exact HS]. }
  assert (Ez : (inject_Z z == rootQ r B s p / 2 * inject_Z (den w))%Q).
  { unfold z. rewrite (pair_num r (fun i => B i s) y (fun i => p i / 2)%Q (den w)); [|intros i Hi; apply HY; auto]. apply Qmult_comp; [|reflexivity]. unfold rootQ, pairQ, Qdiv. rewrite <- qsum_scale. apply qsum_ext. intros i Hi. field. }
  eapply gives_bind; [eapply gives_conv; [intros z' Hz; exact Hz| |apply (dot64 c (num w) r _ y Vc Vy)]|]; [intros e (-> & _); reflexivity|]. intros z' (-> & _). fold z.
  rewrite to_int_id by lia. unfold rv_denominator. rewrite !s64_small by lia. unfold crem at 1. destruct (Z.eqb_spec (den w) 0); [lia|]. unfold chkz at 1.
  destruct (fits64 _); cbn [bind]; [|reflexivity].
  assert (K : Z.rem z (den w) = 0 <-> even_apart (rootQ r B s p) 0).
  { rewrite Z.rem_divide by lia. split; intros (k & Ek).
    - exists k. rewrite Ek, inject_Z_mult in Ez. apply Qmult_inj_r in Ez; [|apply inj_neq0; lia]. rewrite inject_Z_mult, Ez. change (inject_Z 2) with 2%Q. field.
    - exists k. apply inj_inj. rewrite Ez, inject_Z_mult. apply Qmult_comp; [|reflexivity]. rewrite inject_Z_mult in Ek. change (inject_Z 2) with 2%Q in Ek. rewrite <- (Qplus_0_r (rootQ r B s p)). change 0%Q with (- 0)%Q at 1. setoid_replace (rootQ r B s p + - 0)%Q with (2 * inject_Z k)%Q by exact Ek. field. }
  destruct (Z.eqb_spec (Z.rem z (den w)) 0) as [E0|E0]; cbn [negb].
  - cbn [gives]. left. split; [apply K; exact E0|reflexivity].
  - eapply gives_bind; [apply (column_ok 0 _ r n A s HA Hs)|]. intros a Va.
    eapply gives_bind; [apply (scale_int a z r _ Va)|]. intros v (b & Vv & Hb).
    unfold chkz. destruct (fits64 (2 * den w)); cbn [bind]; [|reflexivity].
    eapply gives_bind; [eapply gives_conv; [intros v' Hv; exact Hv| |apply (make_ok v r b (2 * den w) Vv)]|].
    + intros e (-> & _). reflexivity.
    + intros i Hi. destruct (Hb i Hi). unfold in64. lia.
    + lia.
    + lia.
    + intros v1 (RV1 & EN). rewrite Z.abs_eq in EN by lia. assert (LC : Z.lcm (den w) (den v1) = 2 * den w) by (rewrite EN; apply Z.divide_lcm_eq_r; [lia|exists 2; ring]).
      eapply gives_bind; [eapply gives_conv; [| |apply (combine_ok Z.sub 1 (-1) w v1 r (fun i => p i / 2)%Q (fun i => inject_Z (b i) / inject_Z (2 * den w))%Q)]|].
      * intros v2 Hv. exact Hv.
      * intros e (-> & _). reflexivity.
      * intros c0 d0. lia.
      * exact RW.
      * exact RV1.
      * rewrite LC. lia.
      * intros i Hi. rewrite LC. exists (2 * y i - b i). destruct (Hb i Hi) as [_ B2]. specialize (BY i Hi). split; [unfold in64; lia|]. unfold Z.sub. rewrite inject_Z_plus, inject_Z_opp, !inject_Z_mult, (proj2 (HY i Hi)). change (inject_Z 1) with 1%Q. change (inject_Z (-1)) with (- (1))%Q. change (inject_Z 2) with 2%Q. field. apply inj_neq0. lia.
      * intros v2 (R2 & _). eapply gives_conv; [| |apply (make_true v2 r _ R2)].
        -- intros u TU. right. split; [intros EV; apply E0, K, EV|]. eapply torus_ext; [exact TU|]. intros i Hi. apply even_refl. cbv beta. rewrite (proj1 (Hb i Hi)), !inject_Z_mult, Ez. change (inject_Z 1) with 1%Q. change (inject_Z (-1)) with (- (1))%Q. change (inject_Z 2) with 2%Q. field. apply inj_neq0. lia.
        -- intros e (-> & _). reflexivity.
Qed.
