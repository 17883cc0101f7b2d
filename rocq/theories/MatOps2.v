(** Effect of the matrix operations on the entries, continued: blocks, adding and erasing
    rows and columns, permutation of columns. *)

From Coq Require Import List Arith ZArith NArith Lia Bool.
From Verif Require Import VecModel VecProofs PermSpec PermProofs PermCycles RunModel RunProofs MatModel MatSpec MatProofs MatOps.
Import ListNotations.
Open Scope nat_scope.

Lemma mul32_small a b : (N.of_nat (a * b) < 4294967296)%N -> mul32 a b = a * b.
Proof.
  intros H. unfold mul32. rewrite <- Nat2N.inj_mul, N.mod_small by exact H. apply Nat2N.id.
Qed.
Lemma mul32_lt a b : (N.of_nat (mul32 a b) < 4294967296)%N.
Proof. unfold mul32. rewrite N2Nat.id. apply N.mod_lt. discriminate. Qed.

Section Plain.
Context {A : Type} {E : err -> Prop}.
Implicit Types (M N P : matrix A) (f g h : nat -> nat -> A) (z : A).

(** two-index description of the entries *)
Definition grid (d : list A) (m n : nat) f : Prop := forall i j, i < m -> j < n -> get d (i * n + j) = Some (f i j).
Lemma is_mx_grid M m n f : is_mx M m n f -> grid (mdata M) m n f.
Proof. intros (_ & _ & _ & G). exact G. Qed.

Lemma slice_row M m n f i j l (P : list A -> Prop) : is_mx M m n f -> i < m -> j <= l -> l <= n ->
  (forall w, is_vec w (l - j) (fun k => f i (j + k)) -> P w) ->
  gives (vslice (mdata M) (i * n + j) (i * n + l)) P E.
Proof.
  intros H Hi Hj Hl HP. pose proof (partial_row_ok (E := E) M m n f i j l H Hi Hj Hl) as G. unfold partial_row in G.
  rewrite (is_mx_cols _ _ _ _ H) in G. eapply gives_mono; [exact G|exact HP].
Qed.

(** copying consecutive rows of a block into a vector *)
Lemma block_rows M m n f i0 j0 j1 r c d0 :
  is_mx M m n f -> i0 + r <= m -> j0 <= j1 -> j1 <= n -> c = j1 - j0 -> length d0 = r * c ->
  gives (upto r i0 (fun i '(d, p) =>
     run w <- vslice (mdata M) (i * n + j0) (i * n + j1);
     run d <- vcopy w d p; Ok (d, p + length w)) (d0, 0))
   (fun s => length (fst s) = r * c /\ grid (fst s) r c (fun i j => f (i0 + i) (j0 + j))) E.
Proof.
  intros H Hr Hj Hj1 -> Ld. set (c := j1 - j0) in *.
  eapply gives_mono.
  - apply (gives_upto (fun t '(d, p) => p = (t - i0) * c /\ length d = r * c /\
       grid d (t - i0) c (fun i j => f (i0 + i) (j0 + j))) r i0).
    + rewrite Nat.sub_diag. split; [reflexivity|]. split; [exact Ld|]. intros i j Hi. lia.
    + intros i [d p] Hi (-> & L & G).
      assert (S (i - i0) * c <= r * c) by (apply Nat.mul_le_mono_r; lia).
      eapply gives_bind; [eapply (slice_row M m n f i j0 j1 (fun w => is_vec w c _) H ltac:(lia) Hj Hj1)|].
      { intros w Hw. exact Hw. }
      intros w Hw. destruct d as [|x d'] eqn:Ed.
      { cbn in L. eapply gives_bind; [eapply (gives_copy _ _ 0 (fun _ => f 0 0) _ _ _ (fun d => d = [])); [split; [reflexivity|intros; lia]|exact Hw|lia|]|].
        - intros w' [Lw' _]. destruct w'; [reflexivity|discriminate].
        - intros ? ->. apply gives_ok. cbv beta iota. rewrite (proj1 Hw).
          replace (S i - i0) with (S (i - i0)) by lia. split; [lia|]. split; [cbn; lia|]. intros a b Ha Hb. nia. }
      rewrite <- Ed in *. clear Ed d'.
      eapply gives_bind; [eapply (gives_copy _ _ (r * c) (fun k => nth k d x) _ _ _ (fun d' => is_vec d' (r * c) _)); [|exact Hw|lia|intros ? Hx; exact Hx]|].
      { split; [exact L|]. intros k Hk. apply get_nth. lia. }
      intros d' Hd'. apply gives_ok. cbv beta iota. rewrite (proj1 Hw).
      replace (S i - i0) with (S (i - i0)) by lia. split; [lia|]. split; [exact (proj1 Hd')|].
      intros a b Ha Hb. assert (a * c + b < r * c) by (apply mul_lt; lia).
      rewrite (is_vec_get _ _ _ _ Hd') by assumption. cbv beta.
      destruct (Nat.eq_dec a (i - i0)) as [->|ne].
      * nb. do 2 f_equal; lia.
      * assert (S a * c <= (i - i0) * c) by (apply Nat.mul_le_mono_r; lia). nb.
        rewrite <- get_nth by lia. apply G; lia.
  - intros [d p] (_ & L & G). cbn [fst]. replace (i0 + r - i0) with r in G by lia. split; [exact L|exact G].
Qed.
Lemma block_ok z M m n f i0 j0 i1 j1 : is_mx M m n f -> i0 <= i1 <= m -> j0 <= j1 <= n ->
  gives (block z M i0 j0 i1 j1) (fun N => is_mx N (i1 - i0) (j1 - j0) (fun i j => f (i0 + i) (j0 + j))) E.
Proof.
  intros H Hi Hj. unfold block. rewrite (is_mx_cols _ _ _ _ H).
  eapply gives_bind; [apply (block_rows M m n f i0 j0 j1 (i1 - i0) (j1 - j0)); [exact H|lia|lia|lia|reflexivity|apply repeat_length]|].
  intros s [L G]. apply gives_ok. split; [reflexivity|]. split; [reflexivity|]. split; [exact L|exact G].
Qed.
Lemma get_block_ok M m n f D r c g k l : is_mx M m n f -> is_mx D r c g -> k + r <= m -> l + c <= n ->
  gives (get_block M D k l) (fun N => is_mx N r c (fun i j => f (k + i) (l + j))) E.
Proof.
  intros H HD Hk Hl. unfold get_block. rewrite (is_mx_cols _ _ _ _ H), (is_mx_rows _ _ _ _ HD), (is_mx_cols _ _ _ _ HD).
  eapply gives_bind; [apply (block_rows M m n f k l (l + c) r c); [exact H|lia|lia|lia|lia|apply HD]|].
  intros s [L G]. apply gives_ok. split; [reflexivity|]. split; [reflexivity|]. split; [exact L|exact G].
Qed.
Lemma copy_row M m n f i l w c x : is_mx M m n f -> is_vec w c x -> i < m -> l + c <= n ->
  gives (vcopy w (mdata M) (i * n + l)) (fun d => is_mx (mk_mat m n d) m n
    (fun a b => if (a =? i) && (l <=? b) && (b <? l + c) then x (b - l) else f a b)) E.
Proof.
  intros H Hw Hi Hl. assert (HL : S i * n <= m * n) by (apply Nat.mul_le_mono_r; lia).
  apply is_mx_data in H. destruct H as (Hr & Hc & H).
  eapply gives_copy; [exact H|exact Hw|lia|]. intros d Hd.
  split; [reflexivity|]. split; [reflexivity|]. split; [exact (proj1 Hd)|]. cbn [mdata].
  intros a b Ha Hb. rewrite (is_vec_get _ _ _ _ Hd) by (apply mul_lt; assumption). f_equal. cbv beta.
  destruct (div_split (a * n + b) m n ltac:(apply mul_lt; assumption)) as (U1 & U2 & U3).
  destruct (index_inj n a b _ _ Hb U2 U3) as [<- <-].
  destruct (Nat.eqb_spec a i) as [->|ne].
  - nb.
  - assert (a * n + b < i * n \/ i * n + n <= a * n + b).
    { destruct (Nat.lt_ge_cases a i); [left|right].
      - assert (S a * n <= i * n) by (apply Nat.mul_le_mono_r; lia). lia.
      - assert (S i * n <= a * n) by (apply Nat.mul_le_mono_r; lia). lia. }
    nb.
Qed.
Lemma set_block_ok M m n f k l D r c g : is_mx M m n f -> is_mx D r c g -> k + r <= m -> l + c <= n ->
  gives (set_block M k l D) (fun N => is_mx N m n (fun i j =>
    if (k <=? i) && (i <? k + r) && (l <=? j) && (j <? l + c) then g (i - k) (j - l) else f i j)) E.
Proof.
  intros H HD Hk Hl. unfold set_block. rewrite (is_mx_rows _ _ _ _ HD).
  apply (gives_upto0 (fun t N => is_mx N m n (fun i j =>
    if (k <=? i) && (i <? k + t) && (l <=? j) && (j <? l + c) then g (i - k) (j - l) else f i j))).
  - eapply is_mx_ext; [exact H|]. intros a b Ha Hb. nb.
  - intros i N Hi HN. eapply gives_bind; [exact (row_ok D r c g i HD Hi)|].
    intros w Hw. rewrite (is_mx_cols _ _ _ _ HN), (is_mx_rows _ _ _ _ HN).
    eapply gives_bind; [apply (copy_row N m n _ (k + i) l w c (g i) HN Hw); lia|].
    intros d Hd. eapply is_mx_ext; [exact Hd|]. intros a b Ha Hb. nb.
  - intros N HN. exact HN.
Qed.
Lemma add_row_ok z M m n f v x : is_mx M m n f -> is_vec v n x -> (N.of_nat (S m * n) < 4294967296)%N ->
  gives (add_row z M v) (fun N => is_mx N (S m) n (fun i j => if i =? m then x j else f i j)) E.
Proof.
  intros H Hv Hs. unfold add_row. rewrite (is_mx_cols _ _ _ _ H), (is_mx_rows _ _ _ _ H), (mul32_small _ _ Hs).
  assert (HM : is_mx (mk_mat (S m) n (vresize (mdata M) (S m * n) z)) (S m) n (fun i j => if i =? m then z else f i j)).
  { apply is_mx_data in H. destruct H as (_ & _ & H). pose proof (resize_ok _ _ _ (S m * n) z H) as Hd.
    split; [reflexivity|]. split; [reflexivity|]. split; [exact (proj1 Hd)|]. cbn [mdata].
    intros i j Hi Hj. assert (i * n + j < S m * n) by (apply mul_lt; assumption).
    rewrite (is_vec_get _ _ _ _ Hd) by assumption. f_equal.
    destruct (Nat.eqb_spec i m) as [->|ne]; [nb|].
    assert (i * n + j < m * n) by (apply mul_lt; lia).
    destruct (div_split (i * n + j) m n ltac:(assumption)) as (U1 & U2 & U3).
    destruct (index_inj n i j _ _ Hj U2 U3) as [<- <-]. nb. }
  replace ((S m - 1) * n) with (m * n + 0) by (replace (S m - 1) with m by lia; lia).
  eapply gives_bind; [exact (copy_row _ _ _ _ m 0 v n x HM Hv ltac:(lia) ltac:(lia))|].
  intros d Hd. eapply is_mx_ext; [exact Hd|]. intros a b Ha Hb. nb.
Qed.
(** with 2^32 entries or more the new size is computed modulo 2^32, and the copy goes outside *)
Lemma add_row_large z M m n f v x : is_mx M m n f -> is_vec v n x -> (4294967296 <= N.of_nat (S m * n))%N ->
  add_row z M v = Fail Range.
Proof.
  intros H Hv Hs. unfold add_row. rewrite (is_mx_cols _ _ _ _ H), (is_mx_rows _ _ _ _ H).
  unfold vcopy. destruct Hv as [Lv _]. rewrite Lv.
  assert (L : length (vresize (mdata M) (mul32 (S m) n) z) = mul32 (S m) n).
  { unfold vresize. rewrite app_length, firstn_length, repeat_length. lia. }
  rewrite L. pose proof (mul32_lt (S m) n). replace (S m - 1) with m by lia.
  destruct (Nat.leb_spec (m * n + n) (mul32 (S m) n)); [|reflexivity].
  exfalso. replace (m * n + n) with (S m * n) in * by lia. lia.
Qed.
Lemma add_column_ok z M m n f v x : is_mx M m n f -> is_vec v m x -> (N.of_nat (m * S n) < 4294967296)%N ->
  gives (add_column z M v) (fun N => is_mx N m (S n) (fun i j => if j =? n then x i else f i j)) E.
Proof.
  intros H Hv Hs. unfold add_column. rewrite (is_mx_cols _ _ _ _ H), (is_mx_rows _ _ _ _ H), (mul32_small _ _ Hs).
  set (d0 := vresize (mdata M) (m * S n) z).
  assert (Hd0 : length d0 = m * S n /\ forall p, p < m * n -> get d0 p = get (mdata M) p).
  { apply is_mx_data in H. destruct H as (_ & _ & H). pose proof (resize_ok _ _ _ (m * S n) z H) as Hd.
    split; [exact (proj1 Hd)|]. intros p Hp. unfold d0. rewrite (is_vec_get _ _ _ _ Hd) by lia.
    rewrite (is_vec_get _ _ _ _ H Hp). nb. }
  destruct Hd0 as [L0 G0]. rewrite L0. destruct (Nat.ltb_spec (m * S n) m); [lia|].
  set (new := fun i j => if j =? n then x i else f i j).
  eapply gives_bind.
  - apply (gives_downto (fun t '(d, dst, src) => dst = t * S n /\ src = t * n /\ length d = m * S n /\
      (forall p, p < t * n -> get d p = get (mdata M) p) /\
      forall a b, t <= a < m -> b <= n -> get d (a * S n + b) = Some (new a b))) with
      (Q := fun '(d, dst, src) => is_mx (mk_mat m (S n) d) m (S n) new).
    + split; [reflexivity|]. split; [lia|]. split; [exact L0|]. split; [exact G0|]. intros; lia.
    + intros i [[d dst] src] Hi (-> & -> & L & Gp & Gn).
      assert (HL : S i * S n <= m * S n) by (apply Nat.mul_le_mono_r; lia).
      replace (S i * S n) with (S (i * S n + n)) by lia. cbn [back1 bind].
      eapply bind_vget; [exact Hv|exact Hi|].
      eapply gives_bind; [apply (gives_vput d (i * S n + n) (x i) (fun w => length w = length d /\
         forall j, get w j = if j =? i * S n + n then Some (x i) else get d j)); [lia|auto]|].
      intros d' [L' G'].
      apply (gives_downto (fun t '(d, dst, src) => dst = i * S n + t /\ src = i * n + t /\ length d = m * S n /\
        (forall p, p < i * n + t -> get d p = get (mdata M) p) /\
        (forall b, t <= b <= n -> get d (i * S n + b) = Some (new i b)) /\
        forall a b, S i <= a < m -> b <= n -> get d (a * S n + b) = Some (new a b))).
      * split; [reflexivity|]. split; [lia|]. split; [lia|]. split; [|split].
        -- intros p Hp. rewrite G'. destruct (Nat.eqb_spec p (i * S n + n)); [lia|]. apply Gp. lia.
        -- intros b Hb. assert (b = n) as -> by lia. rewrite G', Nat.eqb_refl. unfold new. rewrite Nat.eqb_refl. reflexivity.
        -- intros a b Ha Hb. assert (S i * S n <= a * S n) by (apply Nat.mul_le_mono_r; lia). rewrite G'.
           destruct (Nat.eqb_spec (a * S n + b) (i * S n + n)); [lia|]. apply Gn; lia.
      * intros j [[e dst] src] Hj (-> & -> & Le & Ge & Gi & Ga). rewrite !Nat.add_succ_r. cbn [back1 bind].
        assert (Gs : get e (i * n + j) = Some (f i j)).
        { rewrite Ge by lia. apply (is_mx_grid _ _ _ _ H); assumption. }
        eapply gives_bind; [apply (gives_vget _ _ _ (eq (f i j)) Gs); reflexivity|]. intros ? <-.
        eapply gives_bind; [apply (gives_vput e (i * S n + j) (f i j) (fun w => length w = length e /\
          forall k, get w k = if k =? i * S n + j then Some (f i j) else get e k)); [lia|auto]|].
        intros e' [Le' Ge']. apply gives_ok. cbv beta iota. split; [reflexivity|]. split; [reflexivity|]. split; [lia|].
        split; [|split].
        -- intros p Hp. rewrite Ge'. destruct (Nat.eqb_spec p (i * S n + j)); [lia|]. apply Ge. lia.
        -- intros b Hb. rewrite Ge'. destruct (Nat.eqb_spec (i * S n + b) (i * S n + j)) as [e1|ne].
           ++ assert (b = j) as -> by lia. unfold new. nb.
           ++ apply Gi. lia.
        -- intros a b Ha Hb. assert (S i * S n <= a * S n) by (apply Nat.mul_le_mono_r; lia). rewrite Ge'.
           destruct (Nat.eqb_spec (a * S n + b) (i * S n + j)); [lia|]. apply Ga; lia.
      * intros [[e dst] src] (-> & -> & Le & Ge & Gi & Ga). rewrite !Nat.add_0_r in *.
        split; [reflexivity|]. split; [reflexivity|]. split; [exact Le|]. split; [exact Ge|].
        intros a b Ha Hb. destruct (Nat.eq_dec a i) as [->|]; [apply Gi; lia|apply Ga; lia].
    + intros [[d dst] src] (_ & _ & L & _ & G). split; [reflexivity|]. split; [reflexivity|]. split; [exact L|].
      cbn [mdata]. intros i j Hi Hj. apply G; lia.
  - intros [[d dst] src] Hd. exact Hd.
Qed.
Lemma eraseRow_ok M m n f i : is_mx M m n f -> i < m -> (N.of_nat (m * n) < 4294967296)%N ->
  gives (eraseRow M i) (fun N => is_mx N (m - 1) n (fun a b => f (if a <? i then a else S a) b)) E.
Proof.
  intros H Hi Hs. assert (HL : S i * n <= m * n) by (apply Nat.mul_le_mono_r; lia).
  unfold eraseRow. rewrite (is_mx_cols _ _ _ _ H), (is_mx_rows _ _ _ _ H). rewrite mul32_small by lia.
  apply is_mx_data in H. destruct H as (_ & _ & H).
  eapply gives_bind; [eapply (gives_erase _ _ _ _ _ (fun d => is_vec d _ _) H); [lia|lia|intros ? Hx; exact Hx]|].
  intros d Hd. apply gives_ok. split; [reflexivity|]. split; [reflexivity|]. cbn [mdata]. split; [rewrite (proj1 Hd); nia|].
  intros a b Ha Hb. replace (m * n - (i * n + n - i * n)) with ((m - 1) * n) in Hd by nia.
  rewrite (is_vec_get _ _ _ _ Hd) by (apply mul_lt; assumption). f_equal.
  replace (a * n + b + (i * n + n - i * n)) with (S a * n + b) by lia.
  assert (HA : forall c, c < m -> f ((c * n + b) / n) ((c * n + b) mod n) = f c b).
  { intros c Hcm. destruct (div_split (c * n + b) m n ltac:(apply mul_lt; assumption)) as (U1 & U2 & U3).
    destruct (index_inj n c b _ _ Hb U2 U3) as [<- <-]. reflexivity. }
  destruct (Nat.ltb_spec a i).
  - assert (S a * n <= i * n) by (apply Nat.mul_le_mono_r; lia).
    destruct (Nat.ltb_spec (a * n + b) (i * n)); [|lia]. apply HA. lia.
  - assert (i * n <= a * n) by (apply Nat.mul_le_mono_r; lia).
    destruct (Nat.ltb_spec (a * n + b) (i * n)); [lia|]. apply HA. lia.
Qed.
Lemma eraseColumn_ok M m n f j : is_mx M m n f -> j < n ->
  gives (eraseColumn M j) (fun N => is_mx N m (n - 1) (fun a b => f a (if b <? j then b else S b))) E.
Proof.
  intros H Hj. unfold eraseColumn. rewrite (is_mx_cols _ _ _ _ H), (is_mx_rows _ _ _ _ H).
  destruct n as [|c]; [lia|]. replace (S c - 1) with c by lia.
  pose proof (is_mx_grid _ _ _ _ H) as G0. destruct H as (_ & _ & L0 & _).
  eapply gives_bind with (P := fun s => is_mx (mk_mat m c (fst s)) m c (fun a b => f a (if b <? j then b else S b))); [|intros s Hs; exact Hs].
  apply (gives_upto0 (fun k '(d, pos) => pos = k * c + j /\ length d = m * S c - k /\
    grid d k c (fun a b => f a (if b <? j then b else S b)) /\
    forall p, k * S c <= p < m * S c -> get d (p - k) = get (mdata M) p)).
  - split; [lia|]. split; [lia|]. split; [intros a b Ha; lia|]. intros p Hp. f_equal. lia.
  - intros k [d pos] Hk (-> & L & G & Gp).
    assert (HL : S k * S c <= m * S c) by (apply Nat.mul_le_mono_r; lia).
    destruct d as [|x0 d1] eqn:Ed; [cbn in L; lia|]. rewrite <- Ed in *.
    assert (Hd : is_vec d (m * S c - k) (fun i => nth i d x0)).
    { split; [exact L|]. intros i Hi. apply get_nth. lia. }
    eapply gives_bind; [eapply (gives_erase _ _ _ _ _ (fun e => is_vec e _ _) Hd); [lia|lia|intros ? Hx; exact Hx]|].
    intros e He. replace (S (k * c + j) - (k * c + j)) with 1 in He by lia.
    assert (Ge : forall i, i < m * S c - k - 1 -> get e i = get d (if i <? k * c + j then i else i + 1)).
    { intros i Hi. rewrite (is_vec_get _ _ _ _ He Hi). cbv beta.
      destruct (Nat.ltb_spec i (k * c + j)); symmetry; apply get_nth; lia. }
    apply gives_ok. cbv beta iota. split; [lia|]. split; [rewrite (proj1 He); lia|]. split.
    + intros a b Ha Hb. assert (a * c + b < S k * c) by (apply mul_lt; assumption).
      rewrite Ge by nia. destruct (Nat.eq_dec a k) as [->|ne].
      * destruct (Nat.ltb_spec b j).
        -- destruct (Nat.ltb_spec (k * c + b) (k * c + j)); [|lia].
           replace (k * c + b) with (k * S c + b - k) by lia. rewrite Gp by lia. apply G0; lia.
        -- destruct (Nat.ltb_spec (k * c + b) (k * c + j)); [lia|].
           replace (k * c + b + 1) with (k * S c + S b - k) by lia. rewrite Gp by lia. apply G0; lia.
      * assert (S a * c <= k * c) by (apply Nat.mul_le_mono_r; lia).
        destruct (Nat.ltb_spec (a * c + b) (k * c + j)); [|lia]. apply G; lia.
    + intros p Hp. rewrite Ge by lia. destruct (Nat.ltb_spec (p - S k) (k * c + j)); [lia|].
      replace (p - S k + 1) with (p - k) by lia. apply Gp. lia.
  - intros [d pos] (_ & L & G & _). split; [reflexivity|]. split; [reflexivity|]. cbn [mdata fst].
    split; [lia|exact G].
Qed.

(** permutation of columns *)
Lemma copy_column M m n f l p : is_mx M m n f -> l < n -> p < n ->
  gives (upto m 0 (fun i M => run x <- mget M i p; mput M i l x) M)
        (fun N => is_mx N m n (fun a b => f a (if b =? l then p else b))) E.
Proof.
  intros H Hl Hp.
  apply (gives_upto0 (fun t N => is_mx N m n (fun a b => f a (if (b =? l) && (a <? t) then p else b)))).
  - eapply is_mx_ext; [exact H|]. intros a b Ha Hb. nb.
  - intros i N Hi HN. eapply bind_mget; [exact HN|exact Hi|exact Hp|].
    eapply gives_mput; [exact HN|exact Hi|exact Hl|]. intros N' HN'. eapply is_mx_ext; [exact HN'|].
    intros a b Ha Hb. unfold upd. nb.
  - intros N HN. eapply is_mx_ext; [exact HN|]. intros a b Ha Hb. nb.
Qed.

Definition pfun (pi : list nat) (x : nat) : nat := nth x pi 0.
Section PullBack.
Context (z : A) (m n k : nat) (f : nat -> nat -> A) (pi : list nat).
Hypothesis Hpi : is_perm k pi.
Hypothesis Hk : k <= n.
Notation pf := (pfun pi).
Lemma pf_get x : x < k -> get pi x = Some (pf x).
Proof. intros Hx. apply get_nth. destruct Hpi as [L _]. lia. Qed.
Lemma pf_lt x : x < k -> pf x < k.
Proof. intros Hx. apply (perm_lt _ _ Hpi _ _ (pf_get x Hx)). Qed.
Lemma pf_inj x y : x < k -> y < k -> pf x = pf y -> x = y.
Proof. intros Hx Hy e. apply (perm_inj _ _ Hpi x y (pf x)); [apply pf_get; exact Hx|]. rewrite e. apply pf_get; exact Hy. Qed.

(** between cycles *)
Definition pb_outer (s : list bool) (N : matrix A) : Prop :=
  length s = k /\ (forall x, x < k -> at_ s (pf x) = at_ s x) /\
  is_mx N m n (fun a b => f a (if at_ s b then pf b else b)).
(** along the cycle of [j], column [l] being the one read last *)
Definition pb_inner (j : nat) (s0 : list bool) (st : matrix A * list bool * nat) : Prop :=
  let '(N, s, l) := st in
  length s = k /\ l < k /\ at_ s j = true /\ at_ s l = true /\
  (forall x, at_ s0 x = true -> at_ s x = true) /\
  (forall x, at_ s x = true -> x <> l -> at_ s (pf x) = true) /\
  (forall y, at_ s y = true -> y <> j -> exists x, x < k /\ at_ s x = true /\ x <> l /\ pf x = y) /\
  is_mx N m n (fun a b => f a (if at_ s b && negb (b =? l) then pf b else b)).

Lemma at_lt s x : length s = k -> at_ s x = true -> x < k.
Proof. intros L H. destruct (Nat.lt_ge_cases x k); [assumption|]. rewrite at_ge in H by lia. discriminate. Qed.

Lemma pb_step j s0 st : j < k -> pb_inner j s0 st -> pf (snd st) <> j ->
  gives (pull_step pi st) (fun st' => pb_inner j s0 st' /\ unseen (snd (fst st')) < unseen (snd (fst st)) /\
      snd st' = pf (snd st)) E.
Proof.
  intros Hj. destruct st as [[N s] l]. intros (L & Hl & Sj & Sl & S0 & C & V & HN) ne. cbn [fst snd] in *.
  assert (Fr : at_ s (pf l) = false).
  { destruct (at_ s (pf l)) eqn:e; [|reflexivity]. destruct (V _ e ne) as (x & Hx & Sx & nx & ex).
    apply pf_inj in ex; [congruence|assumption..]. }
  pose proof (pf_lt l Hl) as Hp. assert (nl : pf l <> l) by congruence.
  unfold pull_step. eapply gives_bind; [apply (gives_vget _ _ _ (eq (pf l)) (pf_get l Hl)); reflexivity|]. intros ? <-.
  rewrite (is_mx_rows _ _ _ _ HN). eapply gives_bind; [apply (copy_column N m n _ l (pf l) HN); lia|].
  intros N' HN'. destruct (put_spec s (pf l) true ltac:(lia)) as (s' & Es & Ls & _).
  unfold vput. rewrite Es. cbn [bind]. apply gives_ok. cbn [fst snd].
  pose proof (at_put _ _ _ _ Es) as G.
  assert (Gm : forall x, at_ s x = true -> at_ s' x = true) by (intros x Hx; rewrite G; destruct (x =? pf l); auto).
  split; [|split; [|reflexivity]].
  2:{ erewrite (unseen_put s (pf l) s'); [lia| |exact Es]. rewrite at_get by lia. congruence. }
  split; [lia|]. split; [exact Hp|]. split; [auto|]. split; [rewrite G, Nat.eqb_refl; reflexivity|]. split; [auto|]. split; [|split].
  - intros x Hx nx. rewrite G in Hx. destruct (Nat.eqb_spec x (pf l)) as [|_]; [contradiction|].
    destruct (Nat.eq_dec x l) as [->|nxl]; [rewrite G, Nat.eqb_refl; reflexivity|]. apply Gm. auto.
  - intros y Hy ny. rewrite G in Hy. destruct (Nat.eqb_spec y (pf l)) as [ey|nyp].
    + exists l. split; [exact Hl|]. split; [auto|]. split; [congruence|congruence].
    + destruct (V y Hy ny) as (x & Hx & Sx & nx & ex). exists x. split; [exact Hx|]. split; [auto|]. split; [|exact ex].
      intros ->. congruence.
  - eapply is_mx_ext; [exact HN'|]. intros a b Ha Hb. cbv beta. rewrite G. f_equal.
    destruct (Nat.eqb_spec b l) as [->|nbl].
    + destruct (Nat.eqb_spec l (pf l)); [lia|]. rewrite Sl. rewrite Fr. cbn. reflexivity.
    + destruct (Nat.eqb_spec b (pf l)) as [->|nbp].
      * rewrite Fr. reflexivity.
      * destruct (Nat.eqb_spec b l); [contradiction|reflexivity].
Qed.
Lemma pull_back_columns_ok M : is_mx M m n f ->
  gives (pull_back_columns z M pi) (fun N => is_mx N m n (fun a b => f a (if b <? k then nth b pi 0 else b))) E.
Proof.
  intros H. unfold pull_back_columns. rewrite (perm_len _ _ Hpi).
  eapply gives_bind with (P := fun s => is_mx (fst s) m n (fun a b => f a (if b <? k then nth b pi 0 else b))); [|intros s Hs; exact Hs].
  apply (gives_upto0 (fun t '(N, s) => pb_outer s N /\ forall x, x < t -> at_ s x = true)).
  - split; [|intros; lia]. split; [apply repeat_length|]. split; [intros; rewrite !at_repeat; reflexivity|].
    eapply is_mx_ext; [exact H|]. intros a b Ha Hb. cbv beta. rewrite at_repeat. reflexivity.
  - intros j [N s] Hj [(L & C & HN) Hx].
    eapply gives_bind; [apply (gives_vget _ _ _ (eq (at_ s j)) (at_get s j ltac:(lia))); reflexivity|]. intros ? <-.
    destruct (at_ s j) eqn:Sj.
    { apply gives_ok. split; [split; [exact L|split; [exact C|exact HN]]|]. intros x Hxj.
      destruct (Nat.eq_dec x j) as [->|]; [exact Sj|apply Hx; lia]. }
    destruct (put_spec s j true ltac:(lia)) as (s' & Es & Ls & _).
    unfold vput at 1. rewrite Es. cbn [bind].
    pose proof (at_put _ _ _ _ Es) as G.
    eapply gives_bind; [apply (gives_vget _ _ _ (eq (pf j)) (pf_get j Hj)); reflexivity|]. intros ? <-.
    assert (Hx' : forall x, x < S j -> at_ s' x = true).
    { intros x Hxj. rewrite G. destruct (Nat.eqb_spec x j); [reflexivity|apply Hx; lia]. }
    destruct (Nat.eqb_spec (pf j) j) as [e|ne].
    { apply gives_ok. split; [|exact Hx']. split; [lia|]. split.
      - intros x Hxk. rewrite !G. destruct (Nat.eqb_spec x j) as [->|nx]; [rewrite e, Nat.eqb_refl; reflexivity|].
        destruct (Nat.eqb_spec (pf x) j) as [ex|_]; [|apply C; exact Hxk].
        rewrite <- e in ex. apply pf_inj in ex; [congruence|assumption..].
      - eapply is_mx_ext; [exact HN|]. intros a b Ha Hb. cbv beta. rewrite G.
        destruct (Nat.eqb_spec b j) as [->|_]; [|reflexivity]. rewrite Sj, e. reflexivity. }
    eapply gives_bind; [apply (column_ok z N m n _ j HN); lia|]. intros C_j HC.
    assert (I0 : pb_inner j s (N, s', j)).
    { split; [lia|]. split; [exact Hj|]. rewrite G, Nat.eqb_refl. split; [reflexivity|]. split; [reflexivity|].
      split; [intros x Hxs; rewrite G; destruct (x =? j); auto|]. split; [|split].
      - intros x Hxs nx. rewrite G in Hxs. destruct (Nat.eqb_spec x j); [contradiction|].
        rewrite G. destruct (pf x =? j); [reflexivity|]. rewrite C; [exact Hxs|]. apply (at_lt s); assumption.
      - intros y Hy ny. rewrite G in Hy. destruct (Nat.eqb_spec y j) as [ey0|_]; [contradiction|].
        destruct (perm_surj _ _ Hpi y (at_lt _ _ L Hy)) as (x & Gx & Hxk).
        assert (ex : pf x = y) by (apply get_nth_eq; exact Gx). exists x. split; [exact Hxk|].
        assert (Sx : at_ s x = true) by (rewrite <- C by exact Hxk; rewrite ex; exact Hy).
        split; [rewrite G; destruct (x =? j); auto|]. split; [|exact ex]. intros ->. congruence.
      - eapply is_mx_ext; [exact HN|]. intros a b Ha Hb. cbv beta. rewrite G.
        destruct (Nat.eqb_spec b j) as [->|_]; [rewrite Sj; reflexivity|]. rewrite andb_true_r. reflexivity. }
    eapply gives_bind; [apply (pb_step j s (N, s', j) Hj I0); exact ne|].
    intros st1 (I1 & M1 & _). cbn [fst snd] in M1.
    eapply gives_bind.
    + apply (gives_loop (pb_inner j s) (fun st => unseen (snd (fst st))) (fun st => negb (pf (snd st) =? j))) with
        (Q := fun st => pb_inner j s st /\ pf (snd st) = j).
      * exact I1.
      * pose proof (unseen_le s'). lia.
      * intros [[N1 s1] l1] (L1 & Hl1 & _). cbn [snd].
        eapply gives_bind; [apply (gives_vget _ _ _ (eq (pf l1)) (pf_get l1 Hl1)); reflexivity|]. intros ? <-.
        apply gives_ok. reflexivity.
      * intros st Ist Hc. assert (pf (snd st) <> j) by (destruct (Nat.eqb_spec (pf (snd st)) j); [discriminate|assumption]).
        pose proof (pb_step j s st Hj Ist H0) as Hst. split.
        -- destruct (pull_step pi st) as [st'|e] eqn:Est.
           ++ cbn in Hst. lia.
           ++ destruct st as [[N1 s1] l1]. destruct Ist as (L1 & Hl1 & _ & _ & _ & _ & V1 & _). cbn [fst snd] in *.
              assert (Fr : at_ s1 (pf l1) = false).
              { destruct (at_ s1 (pf l1)) eqn:e1; [|reflexivity]. destruct (V1 _ e1 H0) as (x & Hxk & Sx & nx & ex).
                apply pf_inj in ex; [congruence|assumption..]. }
              destruct (put_spec s1 (pf l1) true ltac:(pose proof (pf_lt l1 Hl1); lia)) as (s2 & Es2 & _).
              rewrite (unseen_put s1 (pf l1) s2); [lia| |exact Es2].
              rewrite at_get by (pose proof (pf_lt l1 Hl1); lia). congruence.
        -- eapply gives_mono; [exact Hst|]. intros st' (Hst' & Mst' & _). split; assumption.
      * intros st Ist Hc. split; [exact Ist|]. destruct (Nat.eqb_spec (pf (snd st)) j); [assumption|discriminate].
    + intros [[N2 s2] l2] [(L2 & Hl2 & Sj2 & Sl2 & S02 & C2 & V2 & HN2) e2]. cbn [snd] in e2.
      eapply gives_bind; [eapply (set_column_ok N2 m n _ l2 C_j); [exact HN2|lia|exact HC]|].
      intros N3 HN3. apply gives_ok. split.
      * split; [exact L2|].
        assert (F : forall x, at_ s2 x = true -> at_ s2 (pf x) = true).
        { intros x Hxs. destruct (Nat.eq_dec x l2) as [->|]; [rewrite e2; exact Sj2|auto]. }
        split.
        -- intros x Hxk. destruct (at_ s2 x) eqn:e; [apply F; exact e|].
           destruct (at_ s2 (pf x)) eqn:e'; [|reflexivity].
           destruct (Nat.eq_dec (pf x) j) as [ej|nj].
           ++ rewrite <- e2 in ej. apply pf_inj in ej; [congruence|assumption..].
           ++ destruct (V2 _ e' nj) as (y & Hy & Sy & ny & ey). apply pf_inj in ey; [congruence|assumption..].
        -- eapply is_mx_ext; [exact HN3|]. intros a b Ha Hb. cbv beta.
           destruct (Nat.eqb_spec b l2) as [->|nb2].
           ++ rewrite Sl2, e2, Sj. reflexivity.
           ++ rewrite andb_true_r. reflexivity.
      * intros x Hxj. destruct (Nat.eq_dec x j) as [->|]; [exact Sj2|apply S02; apply Hx; lia].
  - intros [N s] [(L & C & HN) Hx]. eapply is_mx_ext; [exact HN|]. intros a b Ha Hb. cbv beta. f_equal.
    destruct (Nat.ltb_spec b k); [rewrite Hx by assumption; reflexivity|]. rewrite at_ge by lia. reflexivity.
Qed.
End PullBack.

Lemma conjugate_ok z M n f pi : is_mx M n n f -> is_perm n pi ->
  gives (conjugate z pi M) (fun N => exists g, is_mx N n n g /\
     forall i j a b, get pi i = Some a -> get pi j = Some b -> g a b = f i j) E.
Proof.
  intros H Hp. unfold conjugate. rewrite (perm_len _ _ Hp).
  apply (gives_upto0 (fun t N => exists g, is_mx N n n g /\
     forall i j a b, i < t -> get pi i = Some a -> get pi j = Some b -> g a b = f i j)).
  - exists (fun _ _ => z). split; [apply fill_ok|]. intros; lia.
  - intros i N Hi (g & HN & G).
    apply (gives_upto0 (fun t N => exists g, is_mx N n n g /\
      forall i' j a b, i' < i \/ i' = i /\ j < t -> get pi i' = Some a -> get pi j = Some b -> g a b = f i' j)).
    + exists g. split; [exact HN|]. intros i' j a b Hc. apply G. lia.
    + intros j N' Hj (g' & HN' & G').
      destruct (perm_get _ _ Hp i Hi) as (a & Ga & Ha). destruct (perm_get _ _ Hp j Hj) as (b & Gb & Hb).
      eapply gives_bind; [apply (gives_vget _ _ _ (eq a) Ga); reflexivity|]. intros ? <-.
      eapply gives_bind; [apply (gives_vget _ _ _ (eq b) Gb); reflexivity|]. intros ? <-.
      eapply bind_mget; [exact H|exact Hi|exact Hj|]. eapply gives_mput; [exact HN'|exact Ha|exact Hb|].
      intros N'' HN''. eexists. split; [exact HN''|]. intros i' j' a' b' Hc Ga' Gb'. unfold upd.
      destruct (Nat.eqb_spec a' a) as [->|na]; [destruct (Nat.eqb_spec b' b) as [->|nb]|]; cbn [andb].
      * assert (i' = i) as -> by (eapply perm_inj; eauto). assert (j' = j) as -> by (eapply perm_inj; eauto). reflexivity.
      * apply G'; auto. assert (i' = i) as -> by (eapply perm_inj; eauto). assert (j' <> j) by congruence. lia.
      * apply G'; auto. assert (i' <> i) by congruence. lia.
    + intros N' (g' & HN' & G'). exists g'. split; [exact HN'|]. intros i' j a b Hc Ga Gb.
      apply G'; auto. pose proof (perm_lt _ _ Hp _ _ Gb). lia.
  - intros N (g & HN & G). exists g. split; [exact HN|]. intros i j a b Ga Gb. apply G; auto. apply (perm_lt _ _ Hp _ _ Ga).
Qed.
Lemma inv_conjugate_ok z M n f pi : is_mx M n n f -> is_perm n pi ->
  gives (inv_conjugate z pi M) (fun N => is_mx N n n (fun i j => f (nth i pi 0) (nth j pi 0))) E.
Proof.
  intros H Hp. unfold inv_conjugate. rewrite (perm_len _ _ Hp).
  apply (gives_upto0 (fun t N => is_mx N n n (fun i j => if i <? t then f (nth i pi 0) (nth j pi 0) else z))).
  - exact (fill_ok _ _ z).
  - intros i N Hi HN.
    apply (gives_upto0 (fun t N => is_mx N n n (fun a b =>
       if (a <? i) || (a =? i) && (b <? t) then f (nth a pi 0) (nth b pi 0) else z))).
    + eapply is_mx_ext; [exact HN|]. intros a b Ha Hb. nb.
    + intros j N' Hj HN'.
      destruct (perm_get _ _ Hp i Hi) as (a & Ga & Ha). destruct (perm_get _ _ Hp j Hj) as (b & Gb & Hb).
      eapply gives_bind; [apply (gives_vget _ _ _ (eq a) Ga); reflexivity|]. intros ? <-.
      eapply gives_bind; [apply (gives_vget _ _ _ (eq b) Gb); reflexivity|]. intros ? <-.
      eapply bind_mget; [exact H|exact Ha|exact Hb|]. eapply gives_mput; [exact HN'|exact Hi|exact Hj|].
      intros N'' HN''. eapply is_mx_ext; [exact HN''|]. intros a' b' Ha' Hb'. unfold upd.
      apply (get_nth_eq _ _ 0) in Ga. apply (get_nth_eq _ _ 0) in Gb. subst a b. nb.
    + intros N' HN'. eapply is_mx_ext; [exact HN'|]. intros a b Ha Hb. nb.
  - intros N HN. eapply is_mx_ext; [exact HN|]. intros a b Ha Hb. nb.
Qed.
End Plain.
