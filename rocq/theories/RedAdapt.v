(** matreduc::adapted_basis. *)

From Coq Require Import List Arith ZArith Znumtheory Lia Bool Sorting.Sorted.
From Verif Require Import VecModel VecProofs SetModel SetProofs PermModel PermSpec PermProofs PermCycles RunModel RunProofs MatModel MatSpec MatProofs MatOps MatOps2 MatArith MatRing MatDiv MatDet RedSpec MatLin RedModel RedGcd RedEchelon RedSolve RedInverse RedDiag RedSystem.
Import ListNotations.
Open Scope nat_scope.

Lemma zsum_bump n i x y : i < n -> zsum n (fun b => x b + (if (b =? i)%nat then y else 0))%Z = (zsum n x + y)%Z.
Proof.
  intros H. rewrite zsum_add. f_equal. rewrite (zsum_one n i) by (try exact H; intros k _ ne; nb). rewrite Nat.eqb_refl. reflexivity.
Qed.
(** a column operation on the left factor is undone by a row operation on the right one *)
Lemma prod_colop m beta h i k q a c : i < m -> k < m ->
  fmul m (fun a b => if b =? i then (beta a i + q * beta a k)%Z else beta a b) h a c =
  fmul m beta (fun a b => if a =? k then (h k b + q * h i b)%Z else h a b) a c.
Proof.
  intros Hi Hk. unfold fmul. transitivity (zsum m (fun b => beta a b * h b c) + q * beta a k * h i c)%Z.
  - rewrite <- (zsum_bump m i _ _ Hi). apply zsum_ext. intros b Hb. destruct (Nat.eqb_spec b i) as [->|]; lia.
  - rewrite <- (zsum_bump m k _ _ Hk). apply zsum_ext. intros b Hb. destruct (Nat.eqb_spec b k) as [->|]; lia.
Qed.
Definition swp (i k b : nat) : nat := if b =? i then k else if b =? k then i else b.
Lemma swp_l i k : swp i k i = k.
Proof. unfold swp. nb. Qed.
Lemma swp_r i k : swp i k k = i.
Proof. unfold swp. nb. Qed.
Lemma swp_o i k b : b <> i -> b <> k -> swp i k b = b.
Proof. intros. unfold swp. nb. Qed.
Ltac swp_cases a i k := destruct (Nat.eq_dec a i) as [->|]; [rewrite swp_l|destruct (Nat.eq_dec a k) as [->|]; [rewrite swp_r|rewrite swp_o by assumption]].
Lemma zsum_swap n i k x : i < n -> k < n -> i <> k -> zsum n (fun b => x (swp i k b)) = zsum n x.
Proof.
  intros Hi Hk ne.
  rewrite (zsum_ext n (fun b => x (swp i k b)) (fun b => (x b + (if (b =? i)%nat then x k - x i else 0)) + (if (b =? k)%nat then x i - x k else 0)))%Z.
  - rewrite !zsum_bump by assumption. lia.
  - intros b Hb. unfold swp. destruct (Nat.eqb_spec b i) as [->|]; [destruct (Nat.eqb_spec i k); [contradiction|lia]|].
    destruct (Nat.eqb_spec b k) as [->|]; lia.
Qed.
Lemma prod_swap m beta h i k a c : i < m -> k < m -> i <> k ->
  fmul m (fun a b => beta a (swp i k b)) (fun a b => h (swp i k a) b) a c = fmul m beta h a c.
Proof. intros Hi Hk ne. exact (zsum_swap m i k (fun b => beta a b * h b c)%Z Hi Hk ne). Qed.

Lemma is_mx_unique {A} (M : matrix A) m n f g i j : is_mx M m n f -> is_mx M m n g -> i < m -> j < n -> f i j = g i j.
Proof. intros (_ & _ & _ & F) (_ & _ & _ & G) Hi Hj. specialize (F i j Hi Hj). rewrite (G i j Hi Hj) in F. congruence. Qed.
Lemma Forall2_len {A} (P : A -> nat -> Prop) cs l : Forall2 P cs l -> length cs = length l.
Proof. induction 1; cbn; congruence. Qed.
Lemma Forall2_get {A} (P : A -> nat -> Prop) cs l b : Forall2 P cs l -> b < length l -> exists c, get cs b = Some c /\ P c (nth b l 0).
Proof.
  intros F. revert b. induction F as [|c x cs l Hc F IH]; intros b Hb; [cbn in Hb; lia|]. destruct b as [|b]; [exists c; auto|].
  apply IH. cbn in Hb. lia.
Qed.

Section Adapt.
Variable fits : Z -> bool.
Variable as_int : Z -> Z.
Hypothesis Hint : forall z, as_int z = z.
Notation R := (zarith fits).
Notation E := (overflows fits).

Lemma find_small_ok v N (x : nat -> Z) : is_vec v N x -> 0 < N -> (0 < x 0%nat)%Z ->
  gives (find_small_remainder v) (fun k => match k with
    | Some k => 0 < k < N /\ (0 < x k mod x 0%nat)%Z
    | None => forall k, k < N -> (x 0%nat | x k)%Z end) E.
Proof.
  intros Hv HN P. unfold find_small_remainder. eapply bind_vget; [exact Hv|exact HN|]. rewrite (proj1 Hv).
  eapply gives_bind; [apply (gives_upto (fun t '(mn, k) => match k with
     | Some k => 0 < k < N /\ (0 < x k mod x 0%nat)%Z /\ (mn < x 0%nat)%Z
     | None => mn = x 0%nat /\ forall k, k < t -> (x 0%nat | x k)%Z end))|].
  - split; [reflexivity|]. intros k Hk. replace k with 0 by lia. apply Z.divide_refl.
  - intros i [mn k] Hi IH. eapply bind_vget; [exact Hv|lia|]. unfold aremainder. destruct (Z.ltb_spec 0 (x 0%nat)); [|lia]. cbn [bind].
    pose proof (Z.mod_pos_bound (x i) (x 0%nat) P).
    destruct ((0 <? x i mod x 0%nat) && (x i mod x 0%nat <? mn))%Z eqn:C; apply gives_ok.
    + apply andb_true_iff in C. rewrite !Z.ltb_lt in C. split; [lia|]. split; lia.
    + destruct k as [k|]; [exact IH|]. destruct IH as [-> IH]. split; [reflexivity|]. intros k Hk.
      destruct (Nat.eq_dec k i) as [->|]; [|apply IH; lia]. apply andb_false_iff in C. rewrite !Z.ltb_ge in C.
      apply Z.mod_divide; lia.
  - replace (1 + (N - 1)) with N by lia. intros [mn k] H. destruct k as [k|].
    + destruct H as (H1 & H2 & H3). destruct (Z.ltb_spec mn (x 0%nat)); [|lia]. apply gives_ok. auto.
    + destruct H as [-> H]. rewrite Z.ltb_irrefl. apply gives_ok. exact H.
Qed.

Variables (m n : nat) (f : nat -> nat -> Z).
Section Row.
Variables (i j : nat) (p : nat -> nat) (dd : nat -> Z).
Hypotheses (Hi : i < m) (Hj : j < n) (Hp : forall b, b < j -> p b < i).

(** [h] is the matrix that results if the operations are performed on the whole matrix *)
Definition row_inv (st : matrix Z * matrix Z * Z) : Prop :=
  let '(M, result, d) := st in exists g h beta gamma,
    is_mx M m n g /\ is_mx result m m beta /\ unimodular m beta /\ unimodular n gamma /\
    feq m n (fmul n f gamma) (fmul m beta h) /\
    (forall a b, a < m -> b < j -> h a b = if a =? p b then dd b else 0%Z) /\
    (forall a b, a < m -> j <= b < n -> h a b = g a b) /\
    (forall a b, a < i -> j <= b < n -> h a b = 0%Z) /\
    (0 < d)%Z /\ h i j = d /\ (forall b, j < b < n -> h i b = 0%Z).

(** column operations on columns j and beyond *)
Lemma columns_ok M C g c : is_mx M m n g -> is_mx C (n - j) (n - j) c ->
  gives (column_apply R M C j) (fun M' => is_mx M' m n (fmul n g (embed j (n - j) c))) E.
Proof. intros HM HC. apply (zcolumn_apply_ok fits M m n g C (n - j) c j HM HC). lia. Qed.

Lemma start_row M result g h beta gamma d C flip : is_mx M m n g -> is_mx result m m beta -> unimodular m beta -> unimodular n gamma ->
    feq m n (fmul n f gamma) (fmul m beta h) ->
    (forall a b, a < m -> b < j -> h a b = if a =? p b then dd b else 0%Z) ->
    (forall a b, a < m -> j <= b < n -> h a b = g a b) ->
    (forall a b, a < i -> j <= b < n -> h a b = 0%Z) -> (0 < d)%Z ->
    (exists c, is_mx C (n - j) (n - j) c /\ det (n - j) c = sgn flip /\
      forall k, k < n - j -> frow (n - j) (fun k => g i (j + k)) c k = if k =? 0 then d else 0%Z) ->
  gives (column_apply R M C j) (fun M' => row_inv (M', result, d)) E.
Proof.
  intros HM HR UB UG HF H1 H2 H3 Pd (c & HC & DC & HX).
  eapply gives_mono; [apply (columns_ok M C g c HM HC)|]. intros M' HM'.
  set (w := embed j (n - j) c) in *.
  assert (Low : forall u a b, b < j -> fmul n u w a b = u a b) by (intros u a b Hb; unfold w; rewrite fmul_embed_r by lia; nb).
  assert (High : forall u a b, j <= b < n -> fmul n u w a b = frow (n - j) (fun k => u a (j + k)) c (b - j)).
  { intros u a b Hb. unfold w. rewrite fmul_embed_r by lia. nb. }
  assert (HG : forall a b, a < m -> j <= b < n -> fmul n h w a b = fmul n g w a b).
  { intros a b Ha Hb. rewrite !High by exact Hb. apply zsum_ext. intros k Hk. rewrite H2 by lia. reflexivity. }
  exists (fmul n g w), (fmul n h w), beta, (fmul n gamma w).
  split; [exact HM'|]. split; [exact HR|]. split; [exact UB|].
  split. { apply unimodular_mul; [exact UG|]. apply (sgn_unimodular _ _ flip). unfold w. rewrite det_embed' by lia. exact DC. }
  split. { intros a b Ha Hb. rewrite <- !fmul_assoc. apply fmul_ext_row. intros k Hk. apply HF; assumption. }
  split. { intros a b Ha Hb. rewrite Low by exact Hb. apply H1; assumption. }
  split; [exact HG|].
  split. { intros a b Ha Hb. rewrite High by exact Hb. apply zsum_zero. intros k Hk. rewrite H3 by lia. lia. }
  split; [exact Pd|]. split.
  - rewrite HG, High by lia. rewrite HX by lia. rewrite Nat.sub_diag. reflexivity.
  - intros b Hb. rewrite HG, High by lia. rewrite HX by lia. nb.
Qed.

Lemma adapt_round_ok M result d k : row_inv (M, result, d) -> 0 < k < m - i ->
  (forall g, is_mx M m n g -> 0 < g (i + k)%nat j mod d)%Z ->
  gives (adapt_round fits as_int m n i j (k + i) M result) (fun st => row_inv st /\ let '(_, _, d') := st in (d' < d)%Z) E.
Proof.
  intros (g & h & beta & gamma & HM & HR & UB & UG & HF & H1 & H2 & H3 & Pd & Hd & H4) Hk Hm.
  specialize (Hm g HM). set (k' := k + i) in *. assert (Hk' : i < k' < m) by lia. replace (i + k) with k' in Hm by lia.
  unfold adapt_round. eapply bind_mget; [exact HM|lia|lia|]. eapply bind_mget; [exact HM|lia|lia|].
  rewrite <- (H2 i j) by lia. rewrite Hd. unfold adivide. destruct (Z.ltb_spec 0 d); [|lia]. cbn [bind].
  set (q := (g k' j / d)%Z).
  set (g1 := fun a b => if a =? k' then (g k' b - q * g i b)%Z else g a b).
  set (g2 := fun a b => if (j <=? b) then g1 (swp i k' a) b else g a b).
  eapply gives_bind with (P := fun M' => is_mx M' m n g2).
  { eapply gives_mono; [apply (gives_upto (fun t M' => is_mx M' m n (fun a b => if b <? t then g2 a b else g a b)))|].
    - eapply is_mx_ext; [exact HM|]. intros a b Ha Hb. unfold g2. nb.
    - intros l M1 Hl HM1. assert (l < n) by lia.
      eapply bind_mget; [exact HM1|lia|lia|]. eapply bind_mget; [exact HM1|lia|lia|].
      apply bind_chk; [auto|]. apply bind_chk; [auto|]. rewrite Nat.ltb_irrefl.
      eapply bind_mput; [exact HM1|lia|lia|]. intros M2 HM2.
      eapply gives_mput; [exact HM2|lia|lia|]. intros M3 HM3. eapply is_mx_ext; [exact HM3|].
      intros a b Ha Hb. unfold upd, g2, g1. swp_cases a i k'; nb.
    - intros M1 HM1. eapply is_mx_ext; [exact HM1|]. intros a b Ha Hb. nb. }
  intros M1 HM1.
  set (beta1 := fun a b => if b =? i then (beta a i + q * beta a k')%Z else beta a b).
  set (beta2 := fun a b => beta1 a (swp i k' b)).
  eapply gives_bind with (P := fun M' => is_mx M' m m beta2).
  { apply (gives_upto0 (fun t M' => is_mx M' m m (fun a b => if a <? t then beta2 a b else beta a b))).
    - exact HR.
    - intros l N1 Hl HN1.
      eapply bind_mget; [exact HN1|lia|lia|]. eapply bind_mget; [exact HN1|lia|lia|].
      apply bind_chk; [auto|]. apply bind_chk; [auto|]. rewrite Nat.ltb_irrefl.
      eapply bind_mput; [exact HN1|lia|lia|]. intros N2 HN2.
      eapply gives_mput; [exact HN2|lia|lia|]. intros N3 HN3. eapply is_mx_ext; [exact HN3|].
      intros a b Ha Hb. unfold upd, beta2, beta1. swp_cases b i k'; nb.
    - intros N1 HN1. eapply is_mx_ext; [exact HN1|]. intros a b Ha Hb. nb. }
  intros N1 HN1.
  eapply gives_bind; [apply (partial_row_ok M1 m n g2 i j n HM1); lia|]. intros v Hv.
  eapply gives_bind; [apply (gcd_ops_ok fits (n - j) _ v false 0 Hv); lia|].
  intros [[d' C] flip] (IG & _ & c & HC & DC & HX & _). rewrite xorb_false_l in DC.
  set (h1 := fun a b => if a =? k' then (h k' b + (- q) * h i b)%Z else h a b).
  set (h2 := fun a b => h1 (swp i k' a) b).
  assert (Gij : g2 i j = (g k' j mod d)%Z).
  { unfold g2, g1. rewrite swp_l, Nat.leb_refl, Nat.eqb_refl. rewrite <- (H2 i j) by lia. rewrite Hd, Z.mod_eq by lia. unfold q. lia. }
  assert (Pd' : (0 < d')%Z).
  { destruct IG as (I1 & I2 & _). destruct (Z.eq_dec d' 0) as [e|]; [|lia]. subst d'. specialize (I2 0 ltac:(lia)).
    cbv beta in I2. rewrite Nat.add_0_r, Gij in I2. apply Z.divide_0_l in I2. lia. }
  assert (Ld' : (d' < d)%Z).
  { destruct IG as (I1 & I2 & _). specialize (I2 0 ltac:(lia)). cbv beta in I2. rewrite Nat.add_0_r, Gij in I2.
    apply Z.divide_pos_le in I2; [|exact Hm]. pose proof (Z.mod_pos_bound (g k' j) d Pd). lia. }
  eapply gives_bind; [apply (start_row M1 N1 g2 h2 beta2 gamma d' C flip HM1 HN1)|].
  - apply unimodular_det. unfold beta2, swp. rewrite (@det_colswap m beta1 i k') by lia. unfold beta1.
    rewrite (@det_colop m beta i k' q) by lia. apply unimodular_det in UB. lia.
  - exact UG.
  - intros a b Ha Hb. rewrite HF by assumption. unfold beta2, h2. rewrite prod_swap by lia. unfold beta1. rewrite prod_colop by lia.
    apply fmul_ext_col. intros x Hx. unfold h1. destruct (Nat.eqb_spec x k') as [->|]; [|reflexivity].
    rewrite Nat.eqb_refl. destruct (Nat.eqb_spec i k'); lia.
  - intros a b Ha Hb. specialize (Hp b Hb). unfold h2, h1. swp_cases a i k'; rewrite ?Nat.eqb_refl, ?H1 by lia; nb.
  - intros a b Ha Hb. unfold h2, h1, g2, g1. swp_cases a i k'; nb; rewrite !H2 by lia; lia.
  - intros a b Ha Hb. unfold h2, h1. rewrite swp_o by lia. nb. apply H3; lia.
  - exact Pd'.
  - exists c. split; [exact HC|]. split; [exact DC|]. exact HX.
  - intros M2 J. apply gives_ok. rewrite Hint. split; [exact J|exact Ld'].
Qed.

(** the rest of column j is cleared *)
Lemma clear_column_ok M result d : row_inv (M, result, d) -> (forall g, is_mx M m n g -> forall k, k < m - i -> (d | g (i + k)%nat j)%Z) ->
  gives (upto (m - S i) (S i) (fun k result =>
    run a <- mget M k j; run b <- mget M i j;
    run q <- cdiv fits a b;
    columnOperation R result i k q) result)
   (fun result => exists g h beta gamma,
    is_mx M m n g /\ is_mx result m m beta /\ unimodular m beta /\ unimodular n gamma /\
    feq m n (fmul n f gamma) (fmul m beta h) /\
    (forall a b, a < m -> b < j -> h a b = if a =? p b then dd b else 0%Z) /\
    (forall a b, a < m -> j < b < n -> h a b = g a b) /\
    (forall a b, a <= i -> j < b < n -> h a b = 0%Z) /\
    (forall a, a < m -> h a j = if a =? i then d else 0%Z)) E.
Proof.
  intros (g & h & beta & gamma & HM & HR & UB & UG & HF & H1 & H2 & H3 & Pd & Hd & H4) HD. specialize (HD g HM).
  eapply gives_mono; [apply (gives_upto (fun t result => exists beta, is_mx result m m beta /\ unimodular m beta /\
     feq m n (fmul n f gamma) (fmul m beta (fun a b => if (b =? j) && (i <? a) && (a <? t) then 0%Z else h a b))))|].
  - exists beta. split; [exact HR|]. split; [exact UB|]. intros a b Ha Hb. rewrite HF by assumption. apply fmul_ext_col.
    intros x Hx. destruct (Nat.ltb_spec i x), (Nat.ltb_spec x (S i)); try lia; rewrite ?andb_false_r; reflexivity.
  - intros k result1 Hk (beta1 & HR1 & U1 & F1).
    eapply bind_mget; [exact HM|lia|lia|]. eapply bind_mget; [exact HM|lia|lia|].
    rewrite <- (H2 i j), Hd by lia.
    destruct (HD (k - i) ltac:(lia)) as [q Hq]. replace (i + (k - i)) with k in Hq by lia.
    unfold cdiv. destruct (Z.eqb_spec d 0); [lia|]. apply bind_chk; [auto|].
    replace (Z.quot (g k j) d) with q by (rewrite Hq, Z.quot_mul by lia; reflexivity).
    eapply gives_mono; [apply (zcolop_ok fits result1 m m beta1 i k q HR1); lia|].
    intros result2 HR2. eexists. split; [exact HR2|]. split.
    + apply unimodular_det. rewrite (@det_colop m beta1 i k q) by lia. apply unimodular_det. exact U1.
    + intros a b Ha Hb. rewrite prod_colop by lia. rewrite F1 by assumption. apply fmul_ext_col. intros x Hx.
      destruct (Nat.eqb_spec x k) as [->|ne].
      * rewrite Nat.ltb_irrefl, andb_false_r. destruct (Nat.ltb_spec i k), (Nat.ltb_spec k (S k)), (Nat.ltb_spec i i); try lia. rewrite !andb_true_r, andb_false_r, andb_false_l.
        destruct (Nat.eqb_spec b j) as [->|nj].
        -- rewrite Hd, H2 by lia. lia.
        -- destruct (Nat.lt_ge_cases b j); [rewrite (H1 i) by lia; specialize (Hp b ltac:(lia)); nb; lia|rewrite (H4 b) by lia; lia].
      * destruct (Nat.ltb_spec x k), (Nat.ltb_spec x (S k)); try lia; reflexivity.
  - intros result1 (beta1 & HR1 & U1 & F1). exists g. eexists. exists beta1, gamma.
    split; [exact HM|]. split; [exact HR1|]. split; [exact U1|]. split; [exact UG|]. split; [exact F1|]. cbv beta.
    split. { intros a b Ha Hb. destruct (Nat.eqb_spec b j); [lia|]. apply H1; assumption. }
    split. { intros a b Ha Hb. destruct (Nat.eqb_spec b j); [lia|]. apply H2; lia. }
    split. { intros a b Ha Hb. destruct (Nat.eqb_spec b j); [lia|]. cbn [andb]. destruct (Nat.eq_dec a i) as [->|]; [apply H4; lia|apply H3; lia]. }
    intros a Ha. rewrite Nat.eqb_refl. cbn [andb]. destruct (Nat.lt_trichotomy a i) as [c|[->|c]].
    + rewrite H3 by lia. nb.
    + rewrite Nat.ltb_irrefl. cbn [andb]. nb.
    + nb.
Qed.
End Row.

Definition adapt_inv (i : nat) (st : matrix Z * matrix Z * list Z * bset * nat) : Prop :=
  let '(M, result, diagonal, kept, j) := st in exists g h beta gamma p dd,
    is_mx M m n g /\ is_mx result m m beta /\ unimodular m beta /\ unimodular n gamma /\
    feq m n (fmul n f gamma) (fmul m beta h) /\
    (forall a b, a < m -> b < j -> h a b = if a =? p b then dd b else 0%Z) /\
    (forall a b, a < m -> j <= b < n -> h a b = g a b) /\
    (forall a b, a < i -> j <= b < n -> h a b = 0%Z) /\
    j <= n /\ is_vec diagonal j dd /\ (forall b, b < j -> (0 < dd b)%Z) /\
    (forall b, b < j -> p b < i) /\ (forall a b, a < b -> b < j -> p a < p b) /\
    length kept = m /\ (forall a, bs_mem kept a = true <-> exists b, b < j /\ p b = a).

Lemma adapt_row_ok i st : i < m -> adapt_inv i st -> gives (adapt_row fits as_int m n i st) (adapt_inv (S i)) E.
Proof.
  destruct st as [[[[M result] diagonal] kept] j]. intros Hi.
  intros (g & h & beta & gamma & p & dd & HM & HR & UB & UG & HF & H1 & H2 & H3 & Hj & HD & PD & HP & HI & LK & MK).
  unfold adapt_row. eapply gives_bind; [apply (partial_row_ok M m n g i j n HM); lia|]. intros v Hv.
  eapply gives_bind.
  { destruct (Nat.eq_dec (n - j) 0) as [e|e]; [|apply (gcd_ops_ok fits (n - j) _ v false 0 Hv); lia].
    apply (gcd_ops_ok fits (n - j) _ v false 0 Hv); lia. }
  intros [[d C] flip] (IG & _ & c & HC & DC & HX & _). rewrite xorb_false_l in DC. rewrite Hint.
  destruct (Z.eqb_spec d 0) as [->|nd].
  { apply gives_ok. exists g, h, beta, gamma, p, dd. split; [exact HM|]. split; [exact HR|]. split; [exact UB|]. split; [exact UG|].
    split; [exact HF|]. split; [exact H1|]. split; [exact H2|]. split.
    - intros a b Ha Hb. destruct (Nat.eq_dec a i) as [->|]; [|apply H3; lia]. rewrite H2 by lia.
      destruct IG as (_ & I2 & _). specialize (I2 (b - j) ltac:(lia)). cbv beta in I2. replace (j + (b - j)) with b in I2 by lia.
      apply Z.divide_0_l in I2. exact I2.
    - split; [exact Hj|]. split; [exact HD|]. split; [exact PD|]. split; [intros b Hb; specialize (HP b Hb); lia|]. split; [exact HI|]. split; [exact LK|exact MK]. }
  assert (Pd : (0 < d)%Z) by (destruct IG as [I1 _]; lia).
  assert (Hjn : j < n).
  { destruct (Nat.eq_dec j n) as [->|]; [|lia]. destruct IG as (_ & _ & I3). assert (0 | d)%Z as X by (apply I3; intros; lia). apply Z.divide_0_l in X. lia. }
  destruct (insert_ok kept i ltac:(lia)) as (kept' & EK & LK' & MK'). rewrite EK. cbn [of_option bind].
  eapply gives_bind; [apply (start_row i j p dd Hi Hjn M result g h beta gamma d C flip HM HR UB UG HF H1 H2 H3 Pd);
     exists c; split; [exact HC|]; split; [exact DC|exact HX]|].
  intros M1 J1.
  assert (SR : forall M result d, row_inv i j p dd (M, result, d) -> gives (small_row m i j M) (fun k => match k with
      | Some k => 0 < k < m - i /\ forall g, is_mx M m n g -> (0 < g (i + k)%nat j mod d)%Z
      | None => forall g, is_mx M m n g -> forall k, k < m - i -> (d | g (i + k)%nat j)%Z end) E).
  { intros M0 r0 d0 (g0 & h0 & beta0 & gamma0 & HM0 & _ & _ & _ & _ & _ & Q2 & _ & P0 & Q & _). unfold small_row.
    eapply gives_bind; [apply (partial_column_ok 0%Z M0 m n g0 j i m HM0); lia|]. intros v0 Hv0.
    assert (Q3 : g0 i j = d0) by (rewrite <- Q; symmetry; apply Q2; lia).
    eapply gives_mono; [apply (find_small_ok v0 (m - i) _ Hv0); [lia|rewrite Nat.add_0_r, Q3; exact P0]|].
    rewrite Nat.add_0_r, Q3. intros [k|] Hk.
    - destruct Hk as [K1 K2]. split; [exact K1|]. intros g1 HM1. rewrite (is_mx_unique _ _ _ _ _ _ _ HM1 HM0) by lia. exact K2.
    - intros g1 HM1 k K1. rewrite (is_mx_unique _ _ _ _ _ _ _ HM1 HM0) by lia. apply Hk. exact K1. }
  eapply gives_bind; [exact (SR M1 result d J1)|]. intros k K1.
  eapply gives_bind; [apply (gives_loop (fun '(M, result, d, k) => row_inv i j p dd (M, result, d) /\ match k with
      | Some k => 0 < k < m - i /\ forall g, is_mx M m n g -> (0 < g (i + k)%nat j mod d)%Z
      | None => forall g, is_mx M m n g -> forall k, k < m - i -> (d | g (i + k)%nat j)%Z end)
      (fun '(_, _, d, k) => match k with Some _ => Z.to_nat d | None => 0 end)
      (fun '(_, _, _, k) => match k with Some _ => true | None => false end));
      [split; [exact J1|exact K1]| | | |intros s Hs Hc; exact (conj Hs Hc)]|].
  { destruct k; lia. }
  { intros [[[M2 r2] d2] k2] _. apply gives_ok. destruct k2; reflexivity. }
  { intros [[[M2 r2] d2] k2] [J2 K2] Hc. destruct k2 as [k2|]; [|discriminate]. destruct K2 as [K2 K3].
    assert (P2 : (0 < d2)%Z) by (destruct J2 as (? & ? & ? & ? & _ & _ & _ & _ & _ & _ & _ & _ & P2 & _); exact P2).
    split; [lia|].
    eapply gives_bind; [apply (adapt_round_ok i j p dd Hi Hjn HP M2 r2 d2 k2 J2 K2 K3)|].
    intros [[M3 r3] d3] [J3 L3]. eapply gives_bind; [exact (SR M3 r3 d3 J3)|]. intros k3 K4. apply gives_ok.
    split; [split; [exact J3|exact K4]|]. destruct k3; lia. }
  intros [[[M2 r2] d2] k2] [[J2 K2] Hc]. destruct k2 as [k2|]; [discriminate|].
  assert (P2 : (0 < d2)%Z) by (destruct J2 as (? & ? & ? & ? & _ & _ & _ & _ & _ & _ & _ & _ & P2 & _); exact P2).
  eapply gives_bind; [apply (clear_column_ok i j p dd Hi Hjn HP M2 r2 d2 J2 K2)|].
  intros r3 (g3 & h3 & beta3 & gamma3 & HM3 & HR3 & UB3 & UG3 & HF3 & A1 & A2 & A3 & A4). apply gives_ok.
  exists g3, h3, beta3, gamma3, (upd1 p j i), (upd1 dd j d2).
  split; [exact HM3|]. split; [exact HR3|]. split; [exact UB3|]. split; [exact UG3|]. split; [exact HF3|].
  split. { intros a b Ha Hb. unfold upd1. destruct (Nat.eqb_spec b j) as [->|]; [apply A4; exact Ha|apply A1; lia]. }
  split. { intros a b Ha Hb. apply A2; lia. }
  split. { intros a b Ha Hb. apply A3; lia. }
  split; [lia|].
  split. { destruct HD as [L G]. split; [rewrite app_length; cbn; lia|]. intros a Ha. rewrite get_app, L. unfold upd1. nb.
    - replace (a - j) with 0 by lia. reflexivity.
    - apply G. lia. }
  split. { intros b Hb. unfold upd1. nb. apply PD. lia. }
  split. { intros b Hb. unfold upd1. nb. specialize (HP b ltac:(lia)). lia. }
  split. { intros a b Ha Hb. unfold upd1. destruct (Nat.eqb_spec a j); [lia|]. destruct (Nat.eqb_spec b j); [apply HP; lia|apply HI; lia]. }
  split; [congruence|]. intros a. rewrite MK'. unfold upd1. split.
  - intros H. apply orb_true_iff in H. destruct H as [H|H].
    + apply Nat.eqb_eq in H. exists j. rewrite Nat.eqb_refl. split; [lia|auto].
    + apply MK in H. destruct H as (b & Hb & Pb). exists b. split; [lia|]. nb.
  - intros (b & Hb & Pb). destruct (Nat.eqb_spec b j) as [->|ne]; [subst a; rewrite Nat.eqb_refl; reflexivity|].
    apply orb_true_iff. right. apply MK. exists b. split; [lia|exact Pb].
Qed.

Lemma adapted_basis_ok M : is_mx M m n f ->
  gives (adapted_basis fits as_int M) (fun '(result, diagonal) => exists r dd beta gamma,
     is_vec diagonal r dd /\ is_mx result m m beta /\ r <= m /\ r <= n /\ (forall b, b < r -> (0 < dd b)%Z) /\
     unimodular m beta /\ unimodular n gamma /\
     feq m n (fmul n f gamma) (fun a b => if b <? r then (dd b * beta a b)%Z else 0%Z)) E.
Proof.
  intros HM. unfold adapted_basis. rewrite (is_mx_rows _ _ _ _ HM), (is_mx_cols _ _ _ _ HM).
  eapply gives_bind; [apply zid_ok|]. intros result0 HR0.
  eapply gives_bind; [apply (gives_upto0 adapt_inv); [| |intros s Hs; exact Hs]|].
  { exists f, f, delta, delta, (fun _ => 0), (fun _ => 0%Z). split; [exact HM|]. split; [exact HR0|]. split; [apply unimodular_delta|].
    split; [apply unimodular_delta|]. split. { intros a b Ha Hb. rewrite fmul_id_r, fmul_id_l by assumption. reflexivity. }
    split; [intros; lia|]. split; [reflexivity|]. split; [intros; lia|]. split; [lia|]. split; [split; [reflexivity|intros; lia]|].
    split; [intros; lia|]. split; [intros; lia|]. split; [intros; lia|]. split; [apply new_len|].
    intros b. rewrite mem_new. split; [discriminate|]. intros (a & Ha & _). lia. }
  { intros i st Hi Hst. apply adapt_row_ok; assumption. }
  intros [[[[M1 result] diagonal] kept] r].
  intros (g & h & beta & gamma & p & dd & _ & HR & UB & UG & HF & H1 & H2 & H3 & Hj & HD & PD & HP & HI & LK & MK).
  assert (HE : bs_elems kept = map p (seq 0 r)).
  { apply sorted_ext; [apply sorted_seq_filter|apply sorted_map_seq; intros; apply HI; lia|]. intros x. rewrite elems_In, MK, in_map_iff.
    split; [intros (a & Ha & Pa); exists a; split; [exact Pa|apply in_seq; lia]|intros (a & Pa & Ha); apply in_seq in Ha; exists a; split; [lia|exact Pa]]. }
  pose proof (pivots_perm kept) as PP. set (L := bs_elems kept ++ bs_elems (map negb kept)) in *. rewrite LK in PP.
  assert (LE : length (bs_elems kept) = r) by (rewrite HE, map_length; apply seq_length).
  assert (Hrm : r <= m). { rewrite <- LK, <- LE, <- size_elems. unfold bs_size. apply filter_le. }
  assert (NL : forall b, b < r -> nth b L 0 = p b).
  { intros b Hb. unfold L. rewrite app_nth1 by lia. rewrite HE. rewrite (nth_indep _ 0 (p 0)) by (rewrite map_length, seq_length; exact Hb).
    rewrite map_nth, seq_nth by exact Hb. reflexivity. }
  eapply gives_bind with (P := fun M' => is_mx M' m m (fun a b => beta a (nth b L 0))).
  { destruct (forallb (fun x => x) kept) eqn:Full.
    - apply gives_ok. eapply is_mx_ext; [exact HR|]. intros a b Ha Hb. f_equal. unfold L. rewrite full_elems, LK by exact Full.
      rewrite app_nth1 by (rewrite seq_length; exact Hb). rewrite seq_nth by exact Hb. reflexivity.
    - eapply gives_bind with (P := fun '(kc, dc) => length (kc ++ dc) = m /\ forall b, b < m -> exists c, get (kc ++ dc) b = Some c /\ is_vec c m (fun a => beta a (nth b L 0))).
      + eapply gives_mono; [apply (gives_upto (fun t '(kc, dc) =>
          Forall2 (fun c x => is_vec c m (fun a => beta a x)) kc (filter (bs_mem kept) (seq 0 t)) /\
          Forall2 (fun c x => is_vec c m (fun a => beta a x)) dc (filter (fun x => negb (bs_mem kept x)) (seq 0 t))))|].
        * split; constructor.
        * intros i [kc dc] Hi [F1 F2]. eapply gives_bind; [apply (column_ok 0%Z result m m beta i HR); lia|]. intros c Hc.
          rewrite seq_S, !filter_app. cbn [filter Nat.add].
          destruct (bs_mem kept i); cbn [negb]; apply gives_ok; rewrite ?app_nil_r; split; try assumption; apply Forall2_app; try assumption; constructor; [exact Hc|constructor|exact Hc|constructor].
        * intros [kc dc] [F1 F2]. cbn [Nat.add] in F1, F2. pose proof (Forall2_app F1 F2) as F3.
          replace (filter (bs_mem kept) (seq 0 m) ++ filter (fun x => negb (bs_mem kept x)) (seq 0 m)) with L in F3
            by (unfold L; rewrite elems_negb; unfold bs_elems; rewrite LK; reflexivity).
          assert (LL : length L = m) by apply PP.
          split; [rewrite (Forall2_len _ _ _ F3); exact LL|]. intros b Hb. apply (Forall2_get _ _ _ b F3). lia.
      + intros [kc dc] [LC GC].
        apply (gives_upto0 (fun t N => is_mx N m m (fun a b => if b <? t then beta a (nth b L 0) else beta a b))).
        * exact HR.
        * intros i N Hi HN. destruct (GC i Hi) as (c & Gc & Hc).
          eapply gives_bind; [eapply gives_vget; [exact Gc|]; exact eq_refl|]. intros ? <-.
          eapply gives_mono; [apply (set_column_ok N m m _ i c _ HN Hi Hc)|]. intros N' HN'. eapply is_mx_ext; [exact HN'|].
          intros a b Ha Hb. cbv beta. nb.
        * intros N HN. eapply is_mx_ext; [exact HN|]. intros a b Ha Hb. nb. }
  intros N HN. apply gives_ok. exists r, dd, (fun a b => beta a (nth b L 0)), gamma.
  split; [exact HD|]. split; [exact HN|]. split; [exact Hrm|]. split; [exact Hj|]. split; [exact PD|].
  split. { apply unimodular_det. rewrite (det_perm m beta L PP). apply unimodular_det in UB. destruct (Nat.odd (inversions L)); cbn [sgn]; lia. }
  split; [exact UG|]. intros a b Ha Hb. rewrite HF by assumption. unfold fmul. destruct (Nat.ltb_spec b r) as [br|br].
  - rewrite NL by exact br. specialize (HP b br). rewrite (zsum_one m (p b)).
    + rewrite H1 by assumption. rewrite Nat.eqb_refl. lia.
    + exact HP.
    + intros x Hx ne. rewrite H1 by assumption. nb; lia.
  - apply zsum_zero. intros x Hx. rewrite H3 by lia. lia.
Qed.
End Adapt.
