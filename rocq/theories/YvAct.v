(** Torus elements: evaluation, central elements, actions. *)

From Coq Require Import List Arith ZArith QArith Qabs Qfield Bool Lia Lqa.
From Verif Require Import RootModel.
From Verif Require Import F2Model F2Spec F2Basics F2Proofs F2Kernel F2Ops.
From Verif Require Import BitsModel VecModel RunModel RunProofs MatModel MatSpec MatProofs MatOps MatArith MatDiv MatLin ArithModel ArithSpec ArithProofs ArithRat
  RatVecModel RatVecSpec RatVecProofs RatVecOps RatVecMore RootSpec RootForm DatModel DatSpec DatProofs DatOps DatProps YvModel YvSpec YvProofs YvOps.
Import ListNotations.
Open Scope Z_scope.

Lemma qsum_ext n f g : (forall i, (i < n)%nat -> (f i == g i)%Q) -> (qsum n f == qsum n g)%Q.
Proof.
  intros H. unfold qsum. induction n; [reflexivity|]. cbn [fsum]. rewrite IHn by (intros; apply H; lia). rewrite (H n) by lia. reflexivity.
Qed.
Lemma qsum_zsum n (f : nat -> Z) : (qsum n (fun i => inject_Z (f i)) == inject_Z (zsum n f))%Q.
Proof. unfold qsum, zsum. induction n; [reflexivity|]. cbn [fsum]. rewrite IHn, inject_Z_plus. reflexivity. Qed.
Lemma qsum_scale n c f : (qsum n (fun i => f i * c) == qsum n f * c)%Q.
Proof. unfold qsum. induction n; [cbn; ring|]. cbn [fsum]. rewrite IHn. ring. Qed.
Lemma qsum_plus n f g : (qsum n (fun i => f i + g i) == qsum n f + qsum n g)%Q.
Proof. unfold qsum. induction n; [cbn; ring|]. cbn [fsum]. rewrite IHn. ring. Qed.
Lemma pair_even n y p q : (forall i, (i < n)%nat -> even_apart (p i) (q i)) -> even_apart (pairQ n y p) (pairQ n y q).
Proof.
  unfold pairQ, qsum. induction n; intros H; [apply even_refl; reflexivity|]. cbn [fsum].
  destruct (IHn ltac:(intros; apply H; lia)) as (z & E). destruct (H n ltac:(lia)) as (w & F). exists (z + y n * w).
  replace (2 * (z + y n * w)) with (2 * z + y n * (2 * w)) by ring. rewrite inject_Z_plus, (inject_Z_mult (y n)), <- E, <- F. ring.
Qed.
Lemma pair_num n y x q d : (forall i, (i < n)%nat -> (inject_Z (x i) == q i * inject_Z d)%Q) -> (inject_Z (zsum n (fun i => y i * x i)%Z) == pairQ n y q * inject_Z d)%Q.
Proof.
  intros H. unfold pairQ. rewrite <- qsum_zsum, <- qsum_scale. apply qsum_ext. intros i Hi. rewrite inject_Z_mult, (H i Hi). ring.
Qed.
(** the numerator of a torus element *)
Lemma torus_nums t n q : is_torus t n q -> 0 < den t < 2 ^ 63 /\ exists x p, is_vec (num t) n x /\ is_rv t n p /\
  forall i, (i < n)%nat -> 0 <= x i < 2 * den t /\ (inject_Z (x i) == p i * inject_Z (den t))%Q /\ even_apart (p i) (q i).
Proof.
  intros T. pose proof T as (p & R & HP). apply torus_iff in T as (D0 & x & Vx & HX). split; auto. exists x, p. split; auto. split; auto.
  intros i Hi. destruct R as (_ & y & Vy & HY). assert (y i = x i) by (pose proof (proj2 Vy i Hi); pose proof (proj2 Vx i Hi); congruence).
  destruct (HX i Hi) as (_ & B & _). destruct (HY i Hi) as (_ & E). rewrite H in E. split; auto. split; auto. apply HP; auto.
Qed.
Lemma pair_bound n y x D : 0 <= D -> (forall i, (i < n)%nat -> 0 <= x i <= D) -> zsum n (fun i => Z.abs (y i * x i)) <= zsum n (fun i => Z.abs (y i)) * D.
Proof.
  intros HD H. unfold zsum. induction n; [cbn; lia|]. cbn [fsum]. specialize (IHn ltac:(intros; apply H; lia)). specialize (H n ltac:(lia)).
  rewrite Z.mul_add_distr_r. assert (Z.abs (y n * x n) <= Z.abs (y n) * D); [rewrite Z.abs_mul, (Z.abs_eq (x n)) by lia; nia|lia].
Qed.

(** * evaluation *)
Lemma value_ok t s q : 0 < den t < 2 ^ 62 -> in64 s -> (inject_Z s == q * inject_Z (den t))%Q ->
  gives (run dd <- chkz fits64 (rv_denominator t + rv_denominator t); run m <- of_option (remainder s dd); of_neg (rat_make m (u64 (rv_denominator t))))
    (fun r => is_mod2 r q) never.
Proof.
  intros D0 Bs E. unfold rv_denominator. rewrite s64_small by lia. unfold chkz. rewrite (proj2 (fits64_iff _)) by (unfold in64; lia). cbn [bind].
  rewrite rem_run by (auto; lia). cbn [bind]. rewrite u64_pos by lia. pose proof (Z.mod_pos_bound s (den t + den t) ltac:(lia)) as MB.
  destruct (make_yields (s mod (den t + den t)) (den t) (s mod (den t + den t)) (den t)) as (r & -> & Lr & Qr); [unfold sint; lia|lia|reflexivity|].
  cbn [of_neg gives]. assert (Pr : 0 < rden r) by (destruct Lr as (_ & Pr & _); lia).
  assert (V : (ratval r == inject_Z (s mod (den t + den t)) / inject_Z (den t))%Q).
  { unfold ratval. apply (Qmult_inj_r _ _ (inject_Z (den t))); [apply inj_neq0; lia|]. apply (Qmult_inj_r _ _ (inject_Z (rden r))); [apply inj_neq0; lia|].
    transitivity (inject_Z (rnum r * den t)); [rewrite inject_Z_mult; field; apply inj_neq0; lia|]. rewrite Qr, inject_Z_mult. field. apply inj_neq0; lia. }
  assert (DP : (0 < inject_Z (den t))%Q) by (change 0%Q with (inject_Z 0); rewrite <- Zlt_Qlt; lia).
  split; [exact Lr|]. split; [split|].
  - rewrite V. apply Qle_shift_div_l; auto. rewrite Qmult_0_l. change 0%Q with (inject_Z 0). rewrite <- Zle_Qle. lia.
  - rewrite V. apply Qlt_shift_div_r; auto. change 2%Q with (inject_Z 2). rewrite <- inject_Z_mult, <- Zlt_Qlt. lia.
  - exists (- (s / (den t + den t))). rewrite V. assert (M : s mod (den t + den t) = s + 2 * - (s / (den t + den t)) * den t) by (pose proof (Z.div_mod s (den t + den t) ltac:(lia)); lia).
    rewrite M, inject_Z_plus, (inject_Z_mult (2 * _)), E. field. apply inj_neq0. lia.
Qed.
Lemma eval_at_ok t n q alpha y : is_torus t n q -> is_vec alpha n y -> ample n y t -> gives (eval_at t alpha) (fun r => is_mod2 r (pairQ n y q)) never.
Proof.
  intros T Va (A1 & A2). destruct (torus_nums t n q T) as (D0 & x & p & Vx & RP & HX). unfold eval_at.
  eapply gives_bind; [eapply gives_conv; [intros s Hs; exact Hs| |apply (dot64 alpha (num t) n y x Va Vx)]|].
  - intros e (_ & N). apply N. eapply Z.le_lt_trans; [|exact A2]. apply pair_bound; [lia|]. intros i Hi. destruct (HX i Hi) as (B & _). lia.
  - intros s (-> & Bs). eapply gives_conv; [| |apply (value_ok t _ (pairQ n y p))].
    + intros r (L & B & E). split; auto. split; auto. eapply even_trans; [exact E|]. apply pair_even. intros i Hi. apply HX; auto.
    + auto.
    + lia.
    + exact Bs.
    + apply pair_num. intros i Hi. apply HX; auto.
Qed.
Lemma each_app {A S} (l1 l2 : list A) (body : A -> S -> res S) s : each (l1 ++ l2) body s = (run s <- each l1 body s; each l2 body s).
Proof. revert s. induction l1 as [|a l1 IH]; intros s; cbn [app each bind]; [reflexivity|]. destruct (body a s); cbn [bind]; auto. Qed.
Definition bitZ (v : N) (i : nat) : Z := if coord v i then 1 else 0.
Lemma bits_sum v l n x M : is_vec l n x -> (forall i, (i < n)%nat -> 0 <= x i <= M) -> zsum n (fun i => Z.abs (bitZ v i)) * M < 2 ^ 63 -> forall k, (k <= n)%nat ->
  each (positions_of k v) (fun i s => run z <- vget l i; chkz fits64 (s + z)) 0 = Ok (zsum k (fun i => bitZ v i * x i)) /\
  0 <= zsum k (fun i => bitZ v i * x i) <= zsum k (fun i => Z.abs (bitZ v i)) * M.
Proof.
  intros Vl HX HB. induction k as [|k IH]; intros Hk; [split; [reflexivity|cbn; lia]|]. destruct (IH ltac:(lia)) as (E & B1 & B2).
  rewrite positions_S, each_app, E. cbn [bind]. change (zsum (S k) ?f) with (zsum k f + f k). cbn beta. destruct (HX k ltac:(lia)) as (X1 & X2).
  assert (LE : zsum (S k) (fun i => Z.abs (bitZ v i)) <= zsum n (fun i => Z.abs (bitZ v i))) by (apply zsum_le; [lia|intros; lia]).
  change (zsum (S k) ?f) with (zsum k f + f k) in LE. cbn beta in LE. assert (BK : bitZ v k = if coord v k then 1 else 0) by reflexivity. rewrite BK in *. destruct (coord v k).
  - assert (Z.abs 1 = 1) by reflexivity. assert (BD : 0 <= zsum k (fun i => bitZ v i * x i) + 1 * x k <= (zsum k (fun i => Z.abs (bitZ v i)) + Z.abs 1) * M) by nia. split; [|exact BD].
    cbn [each bind]. unfold vget. rewrite (proj2 Vl k ltac:(lia)). cbn [bind]. unfold chkz. rewrite (proj2 (fits64_iff _)).
    + cbn [bind]. do 2 f_equal. lia.
    + unfold in64. nia.
  - cbn [each]. split; [f_equal; lia|]. cbn [Z.abs]. lia.
Qed.
Lemma eval_bits_ok dim t n q alpha : (n <= dim)%nat -> is_torus t n q -> sized n alpha -> ample n (bitZ (data alpha)) t ->
  gives (eval_bits dim t alpha) (fun r => is_mod2 r (qsum n (fun i => bitQ (data alpha) i * q i)%Q)) never.
Proof.
  intros Hn T (Wa & _) (A1 & A2). destruct (torus_nums t n q T) as (D0 & x & p & Vx & RP & HX). unfold eval_bits. rewrite (positions_within dim n _ Hn Wa).
  destruct (bits_sum (data alpha) (num t) n x (2 * den t) Vx ltac:(intros i Hi; destruct (HX i Hi); lia) A2 n (le_n n)) as (-> & B). cbn [bind].
  eapply gives_conv; [| |apply (value_ok t _ (pairQ n (bitZ (data alpha)) p))].
  - intros r (L & B' & E). split; auto. split; auto. eapply even_trans; [exact E|]. eapply even_trans; [apply (pair_even n _ p q); intros i Hi; apply HX; auto|].
    apply even_refl. unfold pairQ. apply qsum_ext. intros i Hi. unfold bitZ, bitQ. destruct (coord (data alpha) i); reflexivity.
  - auto.
  - lia.
  - unfold in64. lia.
  - apply pair_num. intros i Hi. apply HX; auto.
Qed.
Lemma negative_ok t n q alpha y z : is_torus t n q -> is_vec alpha n y -> ample n y t -> (pairQ n y q == inject_Z z)%Q ->
  negative_at t alpha = Ok (Z.odd z).
Proof.
  intros T Va (A1 & A2) Ez. destruct (torus_nums t n q T) as (D0 & x & p & Vx & RP & HX). unfold negative_at.
  destruct (pair_even n y p q ltac:(intros i Hi; apply HX; auto)) as (w & Ew).
  assert (E : (qsum n (fun i => inject_Z (y i) * p i) == inject_Z (z + 2 * w))%Q) by (fold (pairQ n y p); rewrite inject_Z_plus, <- Ew, <- Ez; ring).
  pose proof (dot_ok t n p alpha y (z + 2 * w) RP Va E) as G. destruct (rv_dot t alpha) as [c|e]; cbn [gives] in G.
  - subst c. cbn [bind]. f_equal. replace (Z.odd z) with (Z.odd (z + 2 * w)) by (rewrite Z.odd_add, Z.odd_mul, xorb_false_r; reflexivity).
    set (c := z + 2 * w). rewrite Zodd_mod. pose proof (Z.rem_divide c 2 ltac:(lia)). pose proof (Z.mod_divide c 2 ltac:(lia)). pose proof (Z.mod_pos_bound c 2 ltac:(lia)).
    unfold Zeq_bool. destruct (Z.eqb_spec (Z.rem c 2) 0) as [R0|R0]; [assert (c mod 2 = 0) by tauto|assert (c mod 2 <> 0) by tauto]; destruct (Z.compare_spec (c mod 2) 1); cbn [negb]; try reflexivity; exfalso; lia.
  - exfalso. destruct G as (_ & N). apply N. unfold fits_sum.
    assert (HP : forall i, (i < n)%nat -> (inject_Z (y i * x i) == inject_Z (y i) * p i * inject_Z (den t))%Q).
    { intros i Hi. rewrite inject_Z_mult. destruct (HX i Hi) as (_ & -> & _). ring. }
    apply (fits_sum_iff n (den t) _ _ ltac:(lia) HP). eapply Z.le_lt_trans; [|exact A2]. apply pair_bound; [lia|]. intros i Hi. destruct (HX i Hi). lia.
Qed.

(** * central elements *)
Lemma dot_into_small narrow v n x c y M : (forall z, Z.abs z < 2 ^ 31 -> narrow z = z) -> is_vec v n x -> is_vec c n y -> 0 <= M -> (forall i, (i < n)%nat -> 0 <= x i <= M) ->
  zsum n (fun i => Z.abs (y i)) * M < 2 ^ 31 -> dot_into fits64 narrow v c = Ok (zsum n (fun i => y i * x i)).
Proof.
  intros Hn Vx Vy HM HX HB. unfold dot_into. rewrite (proj1 Vx).
  assert (G : gives (upto n 0 (fun i c0 => run x0 <- vget v i; run y0 <- vget c i; run p <- chkz fits64 (x0 * y0); run s <- chkz fits64 (c0 + p); Ok (narrow s)) 0) (eq (zsum n (fun i => y i * x i))) never).
  { apply (gives_upto0 (fun k s => s = zsum k (fun i => y i * x i))).
    - reflexivity.
    - intros k s Hk ->. unfold vget. rewrite (proj2 Vx k Hk), (proj2 Vy k Hk). cbn [bind].
      assert (B : Z.abs (zsum k (fun i => y i * x i)) <= zsum k (fun i => Z.abs (y i)) * M).
      { eapply Z.le_trans; [apply zsum_abs|]. apply pair_bound; [auto|]. intros i Hi. apply HX. lia. }
      assert (LE : zsum (S k) (fun i => Z.abs (y i)) <= zsum n (fun i => Z.abs (y i))) by (apply zsum_le; [lia|intros; lia]).
      change (zsum (S k) ?f) with (zsum k f + f k) in LE. cbn beta in LE. pose proof (HX k Hk).
      assert (B2 : Z.abs (x k * y k) <= Z.abs (y k) * M) by (rewrite Z.abs_mul, (Z.abs_eq (x k)) by lia; nia).
      assert (T : Z.abs (zsum k (fun i => y i * x i) + x k * y k) < 2 ^ 31) by nia.
      assert (T2 : Z.abs (x k * y k) < 2 ^ 31) by (assert (0 <= zsum k (fun i => Z.abs (y i))) by (apply (zsum_le 0 k); [lia|intros; lia]); nia).
      unfold chkz. rewrite (proj2 (fits64_iff (x k * y k))) by (unfold in64; lia). cbn [bind].
      rewrite (proj2 (fits64_iff (_ + _))) by (unfold in64; lia). cbn [bind gives]. rewrite Hn by exact T.
      change (zsum (S k) ?f) with (zsum k f + f k). cbn beta. lia.
    - auto. }
  destruct (upto _ _ _ _); [|contradiction]. cbn in G. subst. reflexivity.
Qed.
Lemma central_ok narrow alpha t n m f q : (forall z, Z.abs z < 2 ^ 31 -> narrow z = z) -> is_torus t n q -> is_mx alpha n m f -> den t < 2 ^ 62 ->
  (forall j, (j < m)%nat -> zsum n (fun i => Z.abs (f i j)) * (2 * den t) < 2 ^ 31) ->
  gives (is_central narrow alpha t) (fun b => b = true <-> forall j, (j < m)%nat -> even_apart (pairQ n (fun i => f i j) q) 0) never.
Proof.
  intros Hn T HA Dt HB. destruct (torus_nums t n q T) as (D0 & x & p & Vx & RP & HX). unfold is_central, twice_den, rv_denominator. rewrite s64_small by lia.
  unfold chkz at 1. rewrite (proj2 (fits64_iff _)) by (unfold in64; lia). cbn [bind]. rewrite (is_mx_cols _ _ _ _ HA).
  assert (G : forall k s, (s + k = m)%nat -> gives (central_from narrow alpha (num t) (2 * den t) k s)
    (fun b => b = true <-> forall j, (s <= j < m)%nat -> even_apart (pairQ n (fun i => f i j) q) 0) never).
  { induction k as [|k IH]; intros s Hs; cbn [central_from].
    - cbn [gives]. split; [intros _ j Hj; lia|reflexivity].
    - eapply gives_bind; [apply (MatOps.column_ok 0 alpha n m f s HA); lia|]. intros c Vc.
      assert (HX2 : forall i, (i < n)%nat -> 0 <= x i <= 2 * den t) by (intros i Hi; destruct (HX i Hi); lia).
      rewrite (dot_into_small narrow (num t) n x c (fun i => f i s) (2 * den t) Hn Vx Vc ltac:(lia) HX2 (HB s ltac:(lia))).
      cbn [bind]. set (v := zsum n (fun i => f i s * x i)). assert (Ev : (inject_Z v == pairQ n (fun i => f i s) p * inject_Z (den t))%Q) by (apply (pair_num n (fun i => f i s)); intros i Hi; apply HX; auto).
      assert (K : Z.rem v (2 * den t) = 0 <-> even_apart (pairQ n (fun i => f i s) q) 0).
      { rewrite Z.rem_divide by lia. assert (PE : even_apart (pairQ n (fun i => f i s) p) (pairQ n (fun i => f i s) q)) by (apply pair_even; intros i Hi; apply HX; auto).
        split.
        - intros (z & Ez). eapply even_trans; [apply even_sym; exact PE|]. exists z. rewrite Ez in Ev. apply (Qmult_inj_r _ _ (inject_Z (den t))); [apply inj_neq0; lia|].
          transitivity (pairQ n (fun i => f i s) p * inject_Z (den t))%Q; [ring|]. rewrite <- Ev, <- inject_Z_mult. apply inject_Z_injective. ring.
        - intros E0. destruct (even_trans _ _ _ PE E0) as (z & Ez). exists z. apply inj_inj. rewrite Ev. transitivity (inject_Z (2 * z) * inject_Z (den t))%Q; [rewrite <- Ez; ring|].
          rewrite <- inject_Z_mult. apply inject_Z_injective. ring. }
      assert (Bv : Z.abs v < 2 ^ 31).
      { eapply Z.le_lt_trans; [apply zsum_abs|]. eapply Z.le_lt_trans; [|apply (HB s); lia]. apply (pair_bound n (fun i => f i s) x); [lia|]. intros i Hi. destruct (HX i Hi). lia. }
      assert (CR : crem fits64 v (2 * den t) = Ok (Z.rem v (2 * den t))).
      { unfold crem. destruct (Z.eqb_spec (2 * den t) 0); [lia|]. unfold chkz. rewrite (proj2 (fits64_iff _)); [reflexivity|].
        assert (Z.abs (Z.quot v (2 * den t)) <= Z.abs v). { rewrite <- Z.quot_abs by lia. rewrite (Z.abs_eq (2 * den t)) by lia. rewrite Z.quot_div_nonneg by lia. apply Z.div_le_upper_bound; nia. }
        unfold in64. lia. }
      rewrite CR. cbn [bind]. destruct (Z.eqb_spec (Z.rem v (2 * den t)) 0) as [E0|E0]; cbn [negb].
      + eapply gives_mono; [apply (IH (S s)); lia|]. intros b Hb. rewrite Hb. split.
        * intros H j Hj. destruct (Nat.eq_dec j s) as [->|]; [apply K; auto|apply H; lia].
        * intros H j Hj. apply H. lia.
      + cbn [gives]. split; [discriminate|]. intros H. exfalso. apply E0, K, H. lia. }
  eapply gives_mono; [apply (G m 0%nat); lia|]. intros b Hb. rewrite Hb. split; intros H j Hj; apply H; lia.
Qed.

(** * actions *)
Lemma act_by_ok M t n f q : is_mx M n n f -> is_rv t n q -> gives (te_act_by M t) (fun u => den u = den t /\ is_rv u n (actQ n f q))
  (fun e => e = Overflow /\ exists i, (i < n)%nat /\ ~ fits_sum n (den t) (fun j => inject_Z (f i j) * q j)%Q).
Proof.
  intros HM (Hd & x & V & HX). unfold te_act_by.
  assert (HP : forall i j, (j < n)%nat -> (inject_Z (f i j * x j) == inject_Z (f i j) * q j * inject_Z (den t))%Q).
  { intros i j Hj. rewrite inject_Z_mult. rewrite (proj2 (HX j Hj)). ring. }
  eapply gives_bind; [eapply gives_conv; [intros u Hu; exact Hu| |apply (apply64 M n n f (num t) x HM V)]|].
  - intros e (-> & i & Hi & N). split; auto. exists i. split; auto. rewrite (fits_sum_iff n (den t) _ _ ltac:(lia) (HP i)). exact N.
  - intros u (Vu & Bu). cbn [gives den]. split; auto. apply (is_rv_intro u _ n _ _ Vu); auto. intros i Hi. split; [apply Bu; auto|]. unfold actQ. apply (pair_num n (fun j => f i j) x q (den t)).
    intros j Hj. apply HX; auto.
Qed.
Lemma addmul_in v b c w : vec_addmul fits64 v b c = Ok w -> Forall in64 v -> Forall in64 w.
Proof.
  unfold vec_addmul. destruct (c =? 0); [congruence|]. revert b w. induction v as [|x v IH]; intros [|y b] w; cbn [vmap2]; try discriminate; try (intros E _; injection E as <-; constructor).
  - unfold chkz at 1. destruct (fits64 (y * c)); [|discriminate]. cbn [bind]. unfold chkz at 1. destruct (fits64 (x + y * c)) eqn:F; [|discriminate]. cbn [bind].
    destruct (vmap2 _ v b) eqn:E2; [|discriminate]. cbn [bind]. intros E H. injection E as <-. inversion H; subst. constructor; [apply fits64_iff; auto|]. eapply IH; eauto.
Qed.
Lemma submul_in v b c w : vec_submul fits64 v b c = Ok w -> Forall in64 v -> Forall in64 w.
Proof. unfold vec_submul. destruct (chkz fits64 (- c)); [|discriminate]. cbn [bind]. apply addmul_in. Qed.
Lemma rv_nums t r q : is_rv t r q -> length (num t) = r /\ Forall in64 (num t) /\ forall i, (i < r)%nat -> (inject_Z (co (num t) i) == q i * inject_Z (den t))%Q.
Proof.
  intros (Hd & x & V & HX). split; [apply V|]. assert (E : forall i, (i < r)%nat -> co (num t) i = x i).
  { intros i Hi. unfold co. apply nth_error_nth. apply V; auto. }
  split.
  - apply Forall_forall. intros z Hz. apply (in_get _ _ _ _ V) in Hz as (i & Hi & <-). apply HX; auto.
  - intros i Hi. rewrite E by auto. apply HX; auto.
Qed.
Lemma away_rv t r q x y w : is_rv t r q -> length x = r -> length y = r -> Forall in64 w -> w = away r (num t) (dot r (num t) y) x ->
  is_rv (mk_rv w (den t)) r (fun i => q i - pairQ r (co y) q * inject_Z (co x i))%Q.
Proof.
  intros R Lx Ly Hw Ew. pose proof R as (Hd & _). destruct (rv_nums t r q R) as (Ln & _ & HN). assert (Lw : length w = r) by (subst w; apply away_length).
  apply (is_rv_intro w _ r (co w) _ (vec_self w r Lw)); [auto|]. intros i Hi. split.
  - apply (proj1 (Forall_forall _ _) Hw). apply nth_In. lia.
  - subst w. rewrite co_away by auto. unfold Z.sub. rewrite inject_Z_plus, inject_Z_opp, inject_Z_mult, (HN i Hi). unfold dot.
    assert (E : (inject_Z (zsum r (fun k => co (num t) k * co y k)%Z) == pairQ r (co y) q * inject_Z (den t))%Q).
    { rewrite <- (pair_num r (co y) (co (num t)) q (den t) HN). apply inject_Z_injective. apply zsum_ext. intros k Hk. ring. }
    rewrite E. ring.
Qed.
Lemma te_reflect_ok r n A B p d a x y t q : datum_of fits64 r n A B p d -> (a < num_roots (d_sys d))%nat -> d_root d a = Ok x -> d_coroot d a = Ok y -> is_rv t r q ->
  gives (te_reflect d a t) (fun u => den u = den t /\ is_rv u r (fun i => q i - pairQ r (co y) q * inject_Z (co x i))%Q) (overflows fits64).
Proof.
  intros K Ha Hx Hy R. destruct (rv_nums t r q R) as (Ln & Hn & _). unfold te_reflect.
  pose proof (proj1 (C105_reflect fits64 r n A B p d a x y (num t) 0 K Ha Hx Hy Ln)) as G.
  assert (LL : length x = r /\ length y = r).
  { apply datum_of_ok in K. destruct (d_root_run r n A B p d K a Ha) as [E1 E2]. rewrite Hx in E1. rewrite Hy in E2. injection E1 as ->. injection E2 as ->. split; apply DatMath.comb_length. }
  destruct (d_reflect fits64 d a (num t) 0) as [w|e] eqn:E; cbn [bind]; cbn [gives] in G |- *; [|exact G]. cbn [den]. split; [reflexivity|].
  apply (away_rv t r q x y w R); try tauto.
  - unfold d_reflect in E. rewrite Hx, Hy in E. cbn [bind] in E. destruct (vec_dot _ y (num t)); [|discriminate]. cbn [bind] in E. destruct (chkz fits64 (a0 + 0)); [|discriminate]. cbn [bind] in E. eapply submul_in; eauto.
  - rewrite <- G. f_equal. lia.
Qed.
Lemma te_simple_ok r n A B p i t q : is_mx (p_roots p) r n A -> is_mx (p_coroots p) r n B -> (i < n)%nat -> is_rv t r q ->
  gives (te_simple_reflect p i t) (fun u => den u = den t /\ is_rv u r (fun k => q k - pairQ r (fun j => B j i) q * inject_Z (A k i))%Q) (overflows fits64).
Proof.
  intros HA HB Hi R. destruct (rv_nums t r q R) as (Ln & Hn & _). unfold te_simple_reflect.
  pose proof (C105_simple_reflect fits64 r n A B p i (num t) HA HB Hi Ln) as G.
  destruct (p_reflect fits64 p i (num t)) as [w|e] eqn:E; cbn [bind]; cbn [gives] in G |- *; [|exact G]. cbn [den]. split; [reflexivity|].
  eapply is_rv_ext; [apply (away_rv t r q (fcol r A i) (fcol r B i) w R)|].
  - apply fcol_length.
  - apply fcol_length.
  - unfold p_reflect in E. destruct (p_root p i); [|discriminate]. cbn [bind] in E. destruct (p_coroot p i); [|discriminate]. cbn [bind] in E. destruct (vec_dot _ _ (num t)); [|discriminate]. cbn [bind] in E. eapply submul_in; eauto.
  - symmetry. exact G.
  - intros k Hk. cbv beta. rewrite (co_fcol r A i k) by auto. unfold pairQ. rewrite (qsum_ext r (fun j => inject_Z (co (fcol r B i) j) * q j)%Q (fun j => inject_Z (B j i) * q j)%Q); [reflexivity|]. intros j Hj. rewrite (co_fcol r B i j) by auto. reflexivity.
Qed.
Lemma left_symm_ok M t n f q : is_mx M n n f -> is_rv t n q -> den t < 2 ^ 62 ->
  gives (left_symmetrise M t) (fun u => is_torus u n (fun i => (q i + actQ n f q i) / 2)%Q) (fun e => e = Overflow).
Proof.
  intros HM R Hd. unfold left_symmetrise. eapply gives_bind; [eapply gives_conv; [intros v Hv; exact Hv| |apply (symmetrise_ok M n f t q HM R); lia]|].
  - intros e (-> & _). reflexivity.
  - intros v (RV1 & _). eapply gives_conv; [| |apply (reduce_ok v n _ RV1)].
    + intros u (T & _). exact T.
    + intros e (-> & _). reflexivity.
Qed.
Lemma right_symm_ok M t n f q : is_mx M n n f -> is_rv t n q -> den t < 2 ^ 62 ->
  gives (right_symmetrise M t) (fun u => is_torus u n (fun j => (q j + actQ n (fun i k => f k i) q j) / 2)%Q) (fun e => e = Overflow).
Proof.
  intros HM R Hd. unfold right_symmetrise. eapply gives_bind; [eapply gives_conv; [intros v Hv; exact Hv| |apply (symmetrise_right_ok M n f t q HM R); lia]|].
  - intros e (-> & _). reflexivity.
  - intros v (RV1 & _). eapply gives_conv; [| |apply (reduce_ok v n _ RV1)].
    + intros u (T & _). eapply torus_ext; [exact T|]. intros i Hi. apply even_refl. unfold actQ.
      rewrite (qsum_ext n _ (fun j => inject_Z (f j i) * q j)%Q); [reflexivity|]. intros k Hk. ring.
    + intros e (-> & _). reflexivity.
Qed.
Lemma cross_ok dim r n A B p d a x y t q z : (r <= dim)%nat -> datum_of fits64 r n A B p d -> (a < num_roots (d_sys d))%nat -> d_root d a = Ok x -> d_coroot d a = Ok y ->
  is_torus t r q -> ample r (co y) t -> (pairQ r (co y) q == inject_Z z)%Q ->
  gives (imaginary_cross dim d a t) (fun u => is_torus u r (if Z.odd z then q else fun i => q i + inject_Z (co x i))%Q /\ den u = den t) never.
Proof.
  intros Hr K Ha Hx Hy T Am Ez. unfold imaginary_cross.
  assert (LL : length x = r /\ length y = r).
  { apply datum_of_ok in K. destruct (d_root_run r n A B p d K a Ha) as [E1 E2]. rewrite Hx in E1. rewrite Hy in E2. injection E1 as ->. injection E2 as ->. split; apply DatMath.comb_length. }
  destruct LL as (Lx & Ly). rewrite Hy. cbn [bind]. rewrite (negative_ok t r q y (co y) z T (vec_self y r Ly) Am Ez). cbn [bind]. destruct (Z.odd z).
  - cbn [gives]. auto.
  - rewrite Hx. cbn [bind]. eapply gives_bind; [apply (bv_mod2_ok dim x); lia|]. intros v (Sv & Hv). rewrite Lx in Sv, Hv.
    destruct Am as (A1 & _). eapply gives_mono; [apply (te_add_part_ok dim t r q v Hr T Sv); lia|]. intros u (Tu & Du). split; auto. eapply torus_ext; [exact Tu|].
    intros i Hi. unfold bitQ. rewrite (Hv i Hi). fold (co x i). rewrite (Z.div2_odd (co x i)) at 2. destruct (Z.odd (co x i)); cbn [Z.b2z].
    + exists (- Z.div2 (co x i)). rewrite inject_Z_plus. change (inject_Z 1) with 1%Q. rewrite !inject_Z_mult, inject_Z_opp. ring.
    + exists (- Z.div2 (co x i)). rewrite Z.add_0_r, !inject_Z_mult, inject_Z_opp. ring.
Qed.
