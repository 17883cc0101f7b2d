(** Proofs about rational vectors. *)

From Coq Require Import List Arith ZArith QArith Qfield Bool Lia.
From Verif Require Import VecModel RunModel RunProofs MatModel MatSpec MatProofs MatArith MatDiv ArithModel ArithSpec ArithProofs RatVecModel RatVecSpec.
Import ListNotations.
Open Scope Z_scope.

Ltac big := rewrite ?p63_v, ?p64_v, ?W_v, ?H_v in *.

Lemma gives_conv {A} (m : res A) (P Q : A -> Prop) (E F : err -> Prop) :
  (forall a, P a -> Q a) -> (forall e, E e -> F e) -> gives m P E -> gives m Q F.
Proof. destruct m; cbn; auto. Qed.
Lemma fits64_iff z : fits64 z = true <-> in64 z.
Proof. unfold fits64, in64. rewrite H_val, andb_true_iff, Z.leb_le, Z.ltb_lt. tauto. Qed.
Lemma chk64 z (P : Z -> Prop) (E : err -> Prop) : (in64 z -> P z) -> (~ in64 z -> E Overflow) -> gives (chkz fits64 z) P E.
Proof.
  intros HP HE. unfold chkz. destruct (fits64 z) eqn:F; cbn.
  - apply HP. apply fits64_iff; auto.
  - apply HE. intros H. apply fits64_iff in H. congruence.
Qed.

Lemma vec_nil {A} (x : nat -> A) : is_vec [] 0 x.
Proof. split; auto. intros; lia. Qed.
Lemma vec_cons {A} (a : A) l n x : is_vec (a :: l) (S n) x <-> x O = a /\ is_vec l n (fun i => x (S i)).
Proof.
  unfold is_vec. split.
  - intros (L & G). split; [generalize (G O ltac:(lia)); cbn; congruence|]. split; [cbn in L; lia|]. intros i Hi. apply (G (S i)). lia.
  - intros (E & L & G). split; [cbn; lia|]. intros [|i] Hi; cbn; [congruence|]. apply G. lia.
Qed.

Lemma vmap_chk f v : forall n x, is_vec v n x ->
  gives (vmap (fun a => chkz fits64 (f a)) v)
    (fun u => is_vec u n (fun i => f (x i)) /\ forall i, (i < n)%nat -> in64 (f (x i)))
    (fun e => e = Overflow /\ exists i, (i < n)%nat /\ ~ in64 (f (x i))).
Proof.
  induction v as [|a v IH]; intros n x V.
  - destruct V as (L & _). cbn in L. subst n. cbn. split; [apply vec_nil|intros; lia].
  - destruct n as [|n]; [destruct V as (L & _); discriminate|]. apply vec_cons in V as (E & V).
    cbn [vmap]. eapply gives_bind.
    + apply (chk64 _ (fun z => z = f a /\ in64 z)); [auto|]. intros H. split; auto. exists O. split; [lia|]. rewrite E; auto.
    + intros c (-> & Hc). eapply gives_bind.
      * eapply gives_mono_err; [|apply (IH n _ V)]. intros e (-> & i & Hi & H). split; auto. exists (S i). split; [lia|auto].
      * intros r (Vr & Hr). cbn. split.
        -- apply vec_cons. rewrite E. auto.
        -- intros [|i] Hi; [rewrite E; auto|]. apply Hr. lia.
Qed.
Lemma vmap2_chk f (op : Z -> Z -> res Z) (bad : Z -> Z -> Prop) v :
  (forall a b, gives (op a b) (fun z => z = f a b /\ in64 z) (fun e => e = Overflow /\ bad a b)) -> forall w n x y, is_vec v n x -> is_vec w n y ->
  gives (vmap2 op v w)
    (fun u => is_vec u n (fun i => f (x i) (y i)) /\ forall i, (i < n)%nat -> in64 (f (x i) (y i)))
    (fun e => e = Overflow /\ exists i, (i < n)%nat /\ bad (x i) (y i)).
Proof.
  intros Hop. induction v as [|a v IH]; intros w n x y V V'.
  - destruct V as (L & _). cbn in L. subst n. cbn. split; [apply vec_nil|intros; lia].
  - destruct n as [|n]; [destruct V as (L & _); discriminate|]. apply vec_cons in V as (E & V).
    destruct w as [|b w]; [destruct V' as (L & _); discriminate|]. apply vec_cons in V' as (E' & V').
    cbn [vmap2]. eapply gives_bind.
    + eapply gives_mono_err; [|apply Hop]. intros e (-> & H). split; auto. exists O. split; [lia|]. rewrite E, E'; auto.
    + intros c (-> & Hc). eapply gives_bind.
      * eapply gives_mono_err; [|apply (IH w n _ _ V V')]. intros e (-> & i & Hi & H). split; auto. exists (S i). split; [lia|auto].
      * intros r (Vr & Hr). cbn. split.
        -- apply vec_cons. rewrite E, E'. auto.
        -- intros [|i] Hi; [rewrite E, E'; auto|]. apply Hr. lia.
Qed.

(** rational numbers written with a denominator *)
Lemma inj_inj a b : (inject_Z a == inject_Z b)%Q -> a = b.
Proof. unfold Qeq, inject_Z. cbn. lia. Qed.
Lemma inj_neq0 d : d <> 0 -> ~ (inject_Z d == 0)%Q.
Proof. intros H E. apply H, inj_inj. exact E. Qed.
Lemma holds_iff m q z : (inject_Z z == q * inject_Z m)%Q -> holds m q <-> in64 z.
Proof.
  intros H. split.
  - intros (y & Hy & E). rewrite <- H in E. apply inj_inj in E. subst; auto.
  - intros Hz. exists z; auto.
Qed.

(** * normalize *)
Lemma norm_gcd_ok l : forall d, 0 < d < 2 ^ 63 -> (forall x, In x l -> in64 x) ->
  gives (norm_gcd l d)
    (fun o => match o with
              | Some e => 0 < e < 2 ^ 63 /\ (e | d) /\ (forall x, In x l -> (e | x)) /\ forall c, (c | d) -> (forall x, In x l -> (c | x)) -> (c | e)
              | None => forall c, 0 < c -> (c | d) -> (forall x, In x l -> (c | x)) -> c = 1
              end)
    (fun e => e = Overflow /\ In (- 2 ^ 63) l).
Proof.
  induction l as [|x l IH]; intros d Hd HI; cbn [norm_gcd].
  - apply gives_ok. repeat split; auto; try lia. apply Z.divide_refl. intros x [].
  - destruct (Z.eq_dec x (- 2 ^ 63)) as [->|N].
    + destruct (gcd_s (- 2 ^ 63) d) eqn:G.
      * exfalso. revert G. unfold gcd_s. change (0 <? - 2 ^ 63) with false. change (- 2 ^ 63 =? 0) with false.
        change (chk (- - 2 ^ 63)) with (@None Z). discriminate.
      * cbn. split; auto.
    + assert (S : sint x) by (specialize (HI x (or_introl eq_refl)); unfold in64 in HI; unfold sint; lia).
      rewrite gcd_s_correct by (auto; big; lia). cbn [of_neg].
      change (run d0 <- Ok (Z.gcd x d); if d0 =? 1 then Ok None else norm_gcd l d0)
        with (if Z.gcd x d =? 1 then Ok None else norm_gcd l (Z.gcd x d)).
      assert (Gx : (Z.gcd x d | x)) by apply Z.gcd_divide_l. assert (Gd : (Z.gcd x d | d)) by apply Z.gcd_divide_r.
      assert (P : 0 < Z.gcd x d) by (assert (Z.gcd x d <> 0) by (intros E; apply Z.gcd_eq_0_r in E; lia); pose proof (Z.gcd_nonneg x d); lia).
      assert (L : Z.gcd x d <= d) by (apply Z.divide_pos_le; [lia|auto]).
      destruct (Z.eqb_spec (Z.gcd x d) 1) as [E|E].
      * apply gives_ok. intros c Hc Cd Cl. assert ((c | 1)) by (rewrite <- E; apply Z.gcd_greatest; auto; apply Cl; left; auto).
        apply Z.divide_1_r_nonneg; auto; lia.
      * eapply gives_conv; [| |apply IH; [lia|intros; apply HI; right; auto]].
        -- intros [e|].
           ++ intros (He & Dd & Dl & Dg). repeat split; try lia.
              ** eapply Z.divide_trans; eauto.
              ** intros y [<-|Hy]; auto. eapply Z.divide_trans; eauto.
              ** intros c Cd Cl. apply Dg; [apply Z.gcd_greatest; auto; apply Cl; left; auto|]. intros; apply Cl; right; auto.
           ++ intros H c Hc Cd Cl. apply H; auto; [apply Z.gcd_greatest; auto; apply Cl; left; auto|]. intros; apply Cl; right; auto.
        -- intros e (-> & H). split; auto. right; auto.
Qed.

Lemma vec_div_pos l : forall d, 0 < d < 2 ^ 63 -> (forall x, In x l -> in64 x) -> (forall x, In x l -> (d | x)) ->
  vec_div fits64 l (s64 d) = Ok (map (fun x => x / d) l).
Proof.
  intros d Hd HI HD. rewrite s64_small by (big; lia). unfold vec_div. destruct (Z.eqb_spec d 0); [lia|].
  induction l as [|x l IH]; [reflexivity|]. cbn [vmap map].
  destruct (HD x (or_introl eq_refl)) as (k & ->). pose proof (HI _ (or_introl eq_refl)) as B.
  assert (Q : Z.quot (k * d) d = k) by (apply Z.quot_mul; lia). rewrite Z.div_mul by lia.
  assert (F : fits64 k = true) by (apply fits64_iff; unfold in64 in *; big; nia).
  unfold crem, cdiv, chkz. destruct (Z.eqb_spec d 0); [lia|]. rewrite Q, F. cbn [bind].
  rewrite Z.rem_mul by lia. cbn [Z.eqb]. unfold bind at 1. 
  unfold crem, cdiv, chkz in IH. destruct (Z.eqb_spec d 0); [lia|]. rewrite IH; [reflexivity| |]; intros; [apply HI|apply HD]; right; auto.
Qed.
Lemma in_get {A} (l : list A) n x a : is_vec l n x -> In a l <-> exists i, (i < n)%nat /\ x i = a.
Proof.
  intros (L & G). split.
  - intros H. apply In_nth_error in H as (i & E). assert (i < n)%nat by (rewrite <- L; apply nth_error_Some; congruence).
    exists i. split; auto. specialize (G i H). unfold get in G. congruence.
  - intros (i & Hi & <-). apply (nth_error_In l i). apply (G i Hi).
Qed.
Lemma is_vec_map {A B} (f : A -> B) l n x : is_vec l n x -> is_vec (map f l) n (fun i => f (x i)).
Proof. intros (L & G). split; [rewrite map_length; auto|]. intros i Hi. unfold get in *. rewrite nth_error_map, (G i Hi). reflexivity. Qed.

Theorem normalize_ok v n q : is_rv v n q ->
  gives (rv_normalize v) (fun r => is_rv r n q /\ reduced r /\ (den r | den v)) (fun e => e = Overflow /\ In (- 2 ^ 63) (num v)).
Proof.
  intros (Hd & x & V & HX). unfold rv_normalize. destruct (Z.eqb_spec (den v) 0); [lia|].
  assert (HI : forall y, In y (num v) -> in64 y). { intros y Hy. apply (in_get _ _ _ _ V) in Hy as (i & Hi & <-). apply HX; auto. }
  eapply gives_bind; [apply (norm_gcd_ok (num v) (den v) Hd HI)|]. intros [d|].
  - intros (D & Dd & Dl & Dg). rewrite vec_div_pos by auto. cbn. destruct Dd as (k & E).
    assert (Hk : den v / d = k) by (rewrite E; apply Z.div_mul; lia). rewrite Hk.
    assert (0 < k <= den v) by (rewrite E in *; nia). split; [|split].
    + split; [cbn; lia|]. exists (fun i => x i / d). split; [apply (is_vec_map (fun x => x / d)); auto|]. intros i Hi.
      destruct (HX i Hi) as (B & Q). assert (In (x i) (num v)) by (apply (in_get _ _ _ _ V); eauto).
      destruct (Dl _ H0) as (c & Ec). rewrite Ec in *. rewrite Z.div_mul by lia. split; [unfold in64 in *; nia|].
      cbn [den]. rewrite E in Q. rewrite !inject_Z_mult in Q. apply (Qmult_inj_r _ _ (inject_Z d)); [apply inj_neq0; lia|].
      rewrite Q. ring.
    + intros c Hc (a & Ca) Cl. cbn [den num] in Ca, Cl. assert ((c * d | d)).
      { apply Dg. - rewrite E. exists a. rewrite Ca. ring.
        - intros y Hy. destruct (Dl y Hy) as (b & Eb). subst y. assert (In b (map (fun x => x / d) (num v))).
          { apply in_map_iff. exists (b * d). split; auto. apply Z.div_mul; lia. }
          destruct (Cl _ H0) as (e & ->). exists e. ring. }
      destruct H0 as (e & He). assert (e * c = 1) by nia. assert ((c | 1)) by (exists e; lia). apply Z.divide_1_r_nonneg; auto; lia.
    + exists d. cbn. lia.
  - intros H. cbn. split; [|split; [|apply Z.divide_refl]].
    + split; auto. exists x; auto.
    + intros d D1 D2 D3. apply H; auto.
Qed.

(** reduced forms are unique *)
Theorem reduced_unique v w n q : is_rv v n q -> is_rv w n q -> reduced v -> reduced w -> v = w.
Proof.
  assert (K : forall v w, is_rv v n q -> is_rv w n q -> reduced v -> (den v | den w)).
  { intros v0 w0 (Hd & x & V & HX) (Hd' & y & V' & HY) R.
    set (g := Z.gcd (den v0) (den w0)).
    assert (G : 0 < g). { unfold g. pose proof (Z.gcd_nonneg (den v0) (den w0)). assert (Z.gcd (den v0) (den w0) <> 0) by (intros E; apply Z.gcd_eq_0_l in E; lia). lia. }
    destruct (Z.gcd_divide_l (den v0) (den w0)) as (a & Ea). destruct (Z.gcd_divide_r (den v0) (den w0)) as (b & Eb). fold g in Ea, Eb.
    assert (RP : Z.gcd a b = 1).
    { assert (E : g * Z.gcd a b = g * 1). { rewrite <- Z.gcd_mul_mono_l_nonneg by lia. rewrite (Z.mul_comm g a), (Z.mul_comm g b), <- Ea, <- Eb. unfold g. lia. } nia. }
    assert (A1 : a = 1).
    { apply R; [nia|exists g; lia|]. intros z Hz. apply (in_get _ _ _ _ V) in Hz as (i & Hi & <-).
      destruct (HX i Hi) as (_ & Q1). destruct (HY i Hi) as (_ & Q2).
      assert (C : x i * den w0 = y i * den v0). { apply inj_inj. rewrite !inject_Z_mult, Q1, Q2. ring. }
      assert (C2 : x i * b = y i * a) by (rewrite Ea, Eb in C; nia).
      apply (Z.gauss _ b); [|auto]. exists (y i). lia. }
    exists b. nia. }
  intros Hv Hw Rv Rw. pose proof (K v w Hv Hw Rv) as D1. pose proof (K w v Hw Hv Rw) as D2.
  destruct Hv as (Hd & x & V & HX). destruct Hw as (Hd' & y & V' & HY).
  assert (E : den v = den w) by (apply Z.divide_antisym_nonneg; auto; lia).
  destruct v as [a d], w as [b c]. cbn [num den] in *. subst c. f_equal. apply (is_vec_eq _ _ n x); auto.
  eapply is_vec_ext; [exact V'|]. intros i Hi. destruct (HX i Hi) as (_ & Q1). destruct (HY i Hi) as (_ & Q2). apply inj_inj. rewrite Q1, Q2. reflexivity.
Qed.
