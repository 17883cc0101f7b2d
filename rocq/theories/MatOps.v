(** Effect of the matrix operations on the entries. *)

From Coq Require Import List Arith ZArith NArith Lia Bool.
From Verif Require Import VecModel VecProofs PermProofs RunModel RunProofs MatModel MatSpec MatProofs.
Import ListNotations.
Open Scope nat_scope.

Section Plain.
Context {A : Type} {E : err -> Prop}.
Implicit Types (M N P : matrix A) (f g h : nat -> nat -> A) (z : A).

Lemma row_ok M m n f i : is_mx M m n f -> i < m -> gives (mat_row M i) (fun v => is_vec v n (f i)) E.
Proof.
  intros H Hi. unfold mat_row. rewrite (is_mx_cols _ _ _ _ H).
  assert (S i * n <= m * n) by (apply Nat.mul_le_mono_r; lia).
  apply is_mx_data in H. destruct H as (_ & _ & H).
  eapply gives_slice; [exact H|nia|lia|]. intros w Hw.
  replace (S i * n - i * n) with n in Hw by nia. eapply is_vec_ext; [exact Hw|]. intros j Hj. cbv beta.
  destruct (div_split (i * n + j) m n ltac:(apply mul_lt; assumption)) as (H1 & H2 & H3).
  destruct (index_inj n i j _ _ Hj H2 H3) as [<- <-]. reflexivity.
Qed.
Lemma partial_row_ok M m n f i j l : is_mx M m n f -> i < m -> j <= l -> l <= n ->
  gives (partial_row M i j l) (fun v => is_vec v (l - j) (fun k => f i (j + k))) E.
Proof.
  intros H Hi Hj Hl. unfold partial_row. rewrite (is_mx_cols _ _ _ _ H).
  assert (S i * n <= m * n) by (apply Nat.mul_le_mono_r; lia).
  apply is_mx_data in H. destruct H as (_ & _ & H).
  eapply gives_slice; [exact H|lia|lia|]. intros w Hw.
  replace (i * n + l - (i * n + j)) with (l - j) in Hw by lia. eapply is_vec_ext; [exact Hw|]. intros k Hk. cbv beta.
  destruct (div_split (i * n + j + k) m n ltac:(rewrite <- Nat.add_assoc; apply mul_lt; lia)) as (H1 & H2 & H3).
  destruct (index_inj n i (j + k) _ _ ltac:(lia) H2 (eq_trans (Nat.add_assoc _ _ _) H3)) as [<- <-]. reflexivity.
Qed.
Lemma column_ok z M m n f j : is_mx M m n f -> j < n -> gives (mat_column z M j) (fun v => is_vec v m (fun i => f i j)) E.
Proof.
  intros H Hj. unfold mat_column. rewrite (is_mx_rows _ _ _ _ H).
  eapply (gives_fill m (fun i => f i j)); [apply is_vec_repeat| |auto].
  intros i w h Hi Hw _. eapply bind_mget; [exact H|exact Hi|exact Hj|].
  eapply gives_vput_vec; [exact Hw|exact Hi|auto].
Qed.
Lemma partial_column_ok z M m n f j i k : is_mx M m n f -> j < n -> k <= m ->
  gives (partial_column z M j i k) (fun v => is_vec v (k - i) (fun a => f (i + a) j)) E.
Proof.
  intros H Hj Hk. unfold partial_column.
  eapply (gives_fill (k - i) (fun a => f (i + a) j)); [apply is_vec_repeat| |auto].
  intros a w h Ha Hw _. eapply bind_mget; [exact H|lia|exact Hj|].
  eapply gives_vput_vec; [exact Hw|exact Ha|auto].
Qed.
Lemma set_column_ok M m n f j v x : is_mx M m n f -> j < n -> is_vec v m x ->
  gives (set_column M j v) (fun M' => is_mx M' m n (fun a b => if b =? j then x a else f a b)) E.
Proof.
  intros H Hj Hv. unfold set_column. rewrite (is_mx_rows _ _ _ _ H).
  apply (gives_upto0 (fun t M' => is_mx M' m n (fun a b => if (b =? j) && (a <? t) then x a else f a b))).
  - eapply is_mx_ext; [exact H|]. intros a b _ _. nb.
  - intros i M' Hi HM. eapply bind_vget; [exact Hv|exact Hi|].
    eapply gives_mput; [exact HM|exact Hi|exact Hj|]. intros M'' HM'.
    eapply is_mx_ext; [exact HM'|]. intros a b Ha Hb. unfold upd. nb.
  - intros M' HM. eapply is_mx_ext; [exact HM|]. intros a b Ha Hb. nb.
Qed.
Lemma set_row_ok M m n f i v x : is_mx M m n f -> i < m -> is_vec v n x ->
  gives (set_row M i v) (fun M' => is_mx M' m n (fun a b => if a =? i then x b else f a b)) E.
Proof.
  intros H Hi Hv. unfold set_row. rewrite (is_mx_cols _ _ _ _ H).
  assert (HL : S i * n <= m * n) by (apply Nat.mul_le_mono_r; lia).
  eapply gives_bind; [eapply (gives_slice _ _ _ _ _ (fun w => is_vec w n x)); [exact Hv|lia|lia|]|].
  { intros w Hw. rewrite Nat.sub_0_r in Hw. exact Hw. }
  intros w Hw. pose proof H as H'. apply is_mx_data in H. destruct H as (Hr & Hc & H).
  eapply gives_bind; [eapply (gives_copy _ _ _ _ _ _ _ (fun d => is_vec d (m * n) _)); [exact H|exact Hw|lia|intros ? Hx; exact Hx]|].
  intros d Hd. apply gives_ok. unfold is_mx. cbn [mrows mcols mdata]. split; [exact Hr|]. split; [reflexivity|]. split; [exact (proj1 Hd)|].
  intros a b Ha Hb. rewrite (is_vec_get _ _ _ _ Hd) by (apply mul_lt; assumption). f_equal. cbv beta.
  destruct (div_split (a * n + b) m n ltac:(apply mul_lt; assumption)) as (H1 & H2 & H3).
  destruct (index_inj n a b _ _ Hb H2 H3) as [<- <-].
  destruct (Nat.eqb_spec a i) as [->|ne].
  - nb.
  - assert (a * n + b < i * n \/ i * n + n <= a * n + b).
    { destruct (Nat.lt_ge_cases a i); [left|right].
      - assert (S a * n <= i * n) by (apply Nat.mul_le_mono_r; lia). lia.
      - assert (S i * n <= a * n) by (apply Nat.mul_le_mono_r; lia). lia. }
    nb.
Qed.
Lemma of_columns_ok z (b : list (list A)) m c :
  (forall j, j < length b -> exists v, get b j = Some v /\ is_vec v m (c j)) ->
  gives (mat_of_columns z b m) (fun M => is_mx M m (length b) (fun i j => c j i)) E.
Proof.
  intros H. unfold mat_of_columns.
  apply (gives_upto0 (fun t M' => is_mx M' m (length b) (fun i j => if j <? t then c j i else z))).
  - exact (fill_ok m (length b) z).
  - intros j M' Hj HM. destruct (H j Hj) as (v & Gv & Hv).
    eapply gives_bind; [apply (gives_vget _ _ _ (fun w => w = v) Gv); reflexivity|]. intros w ->.
    eapply gives_mono; [eapply set_column_ok; [exact HM|exact Hj|exact Hv]|].
    intros M'' HM'. eapply is_mx_ext; [exact HM'|]. intros a k Ha Hk. nb.
  - intros M' HM. eapply is_mx_ext; [exact HM|]. intros a k Ha Hk. nb.
Qed.
Lemma rows_ok M m n f : is_mx M m n f ->
  gives (mat_rows M) (fun r => length r = m /\ forall i, i < m -> exists v, get r i = Some v /\ is_vec v n (f i)) E.
Proof.
  intros H. unfold mat_rows. rewrite (is_mx_rows _ _ _ _ H).
  apply (gives_upto0 (fun t r => length r = m /\ forall i, i < t -> exists v, get r i = Some v /\ is_vec v n (f i))).
  - split; [apply repeat_length|]. intros; lia.
  - intros i r Hi [L G]. eapply gives_bind; [apply (row_ok M m n f i H Hi)|]. intros v Hv.
    apply gives_vput; [lia|]. intros w Lw Gw. split; [congruence|]. intros k Hk. rewrite Gw.
    destruct (Nat.eqb_spec k i) as [->|]; [exists v; auto|apply G; lia].
  - auto.
Qed.
Lemma columns_ok z M m n f : is_mx M m n f ->
  gives (mat_columns z M) (fun r => length r = n /\ forall j, j < n -> exists v, get r j = Some v /\ is_vec v m (fun i => f i j)) E.
Proof.
  intros H. unfold mat_columns. rewrite (is_mx_cols _ _ _ _ H).
  apply (gives_upto0 (fun t r => length r = n /\ forall j, j < t -> exists v, get r j = Some v /\ is_vec v m (fun i => f i j))).
  - split; [apply repeat_length|]. intros; lia.
  - intros i r Hi [L G]. eapply gives_bind; [apply (column_ok z M m n f i H Hi)|]. intros v Hv.
    apply gives_vput; [lia|]. intros w Lw Gw. split; [congruence|]. intros k Hk. rewrite Gw.
    destruct (Nat.eqb_spec k i) as [->|]; [exists v; auto|apply G; lia].
  - auto.
Qed.
Lemma row_matrix_ok z v n x : is_vec v n x -> gives (row_matrix z v) (fun M => is_mx M 1 n (fun _ j => x j)) E.
Proof.
  intros Hv. unfold row_matrix. rewrite (proj1 Hv).
  apply (gives_upto0 (fun t M' => is_mx M' 1 n (fun _ j => if j <? t then x j else z))).
  - exact (fill_ok 1 n z).
  - intros j M' Hj HM. eapply bind_vget; [exact Hv|exact Hj|].
    eapply gives_mput; [exact HM|lia|exact Hj|]. intros M'' H'. eapply is_mx_ext; [exact H'|].
    intros a b Ha Hb. unfold upd. nb.
  - intros M' HM. eapply is_mx_ext; [exact HM|]. intros a k Ha Hk. nb.
Qed.
Lemma column_matrix_ok z v n x : is_vec v n x -> gives (column_matrix z v) (fun M => is_mx M n 1 (fun i _ => x i)) E.
Proof.
  intros Hv. unfold column_matrix. rewrite (proj1 Hv).
  apply (gives_upto0 (fun t M' => is_mx M' n 1 (fun i _ => if i <? t then x i else z))).
  - exact (fill_ok n 1 z).
  - intros j M' Hj HM. eapply bind_vget; [exact Hv|exact Hj|].
    eapply gives_mput; [exact HM|lia|lia|]. intros M'' H'. eapply is_mx_ext; [exact H'|].
    intros a b Ha Hb. unfold upd. nb.
  - intros M' HM. eapply is_mx_ext; [exact HM|]. intros a k Ha Hk. nb.
Qed.
Lemma transposed_block_ok z M m n f i0 j0 i1 j1 : is_mx M m n f -> i0 <= i1 <= n -> j0 <= j1 <= m ->
  gives (transposed_block z M i0 j0 i1 j1) (fun N => is_mx N (i1 - i0) (j1 - j0) (fun i j => f (j0 + j) (i0 + i))) E.
Proof.
  intros H Hi Hj. unfold transposed_block.
  apply (gives_upto0 (fun t N => is_mx N (i1 - i0) (j1 - j0) (fun i j => if i <? t then f (j0 + j) (i0 + i) else z))).
  - exact (fill_ok _ _ z).
  - intros i N Hi' HN.
    apply (gives_upto0 (fun t N => is_mx N (i1 - i0) (j1 - j0) (fun a b =>
       if (a <? i) || (a =? i) && (b <? t) then f (j0 + b) (i0 + a) else z))).
    + eapply is_mx_ext; [exact HN|]. intros a b Ha Hb. nb.
    + intros j N' Hj' HN'. eapply bind_mget; [exact H|lia|lia|].
      eapply gives_mput; [exact HN'|lia|lia|]. intros N'' H'. eapply is_mx_ext; [exact H'|].
      intros a b Ha Hb. unfold upd. nb.
    + intros N' HN'. eapply is_mx_ext; [exact HN'|]. intros a b Ha Hb. nb.
  - intros N HN. eapply is_mx_ext; [exact HN|]. intros a b Ha Hb. nb.
Qed.
Lemma transposed_ok z M m n f : is_mx M m n f -> gives (transposed z M) (fun N => is_mx N n m (fun i j => f j i)) E.
Proof.
  intros H. unfold transposed. rewrite (is_mx_rows _ _ _ _ H), (is_mx_cols _ _ _ _ H).
  eapply gives_bind with (P := fun s => is_mx (fst s) n m (fun i j => f j i)); [|intros s Hs; exact Hs].
  apply (gives_upto0 (fun t '(N, p) => p = t * n /\ is_mx N n m (fun a b => if b <? t then f b a else z))).
  - split; [reflexivity|]. exact (fill_ok _ _ z).
  - intros i [N p] Hi [-> HN].
    apply (gives_upto0 (fun t '(N, p) => p = i * n + t /\ is_mx N n m (fun a b =>
       if (b <? i) || (b =? i) && (a <? t) then f b a else z))).
    + split; [lia|]. eapply is_mx_ext; [exact HN|]. intros a b Ha Hb. nb.
    + intros j [N' p'] Hj' [-> HN'].
      destruct H as (Hr & Hc & L & G). eapply gives_bind; [apply (gives_vget _ _ _ (eq (f i j)) (G i j Hi Hj')); reflexivity|].
      intros ? <-. eapply bind_mput; [exact HN'|exact Hj'|exact Hi|]. intros N'' H'. apply gives_ok. cbv beta iota. split; [lia|].
      eapply is_mx_ext; [exact H'|]. intros a b Ha Hb. unfold upd. nb.
    + intros [N' p'] [-> HN']. split; [nia|]. eapply is_mx_ext; [exact HN'|]. intros a b Ha Hb. nb.
  - intros [N p] [_ HN]. eapply is_mx_ext; [exact HN|]. intros a b Ha Hb. nb.
Qed.
Lemma mswap_ok M m n f i j k l : is_mx M m n f -> i < m -> j < n -> k < m -> l < n ->
  gives (mswap M i j k l) (fun M' => is_mx M' m n (upd (upd f i j (f k l)) k l (f i j))) E.
Proof.
  intros H Hi Hj Hk Hl. unfold mswap. eapply bind_mget; [exact H|exact Hi|exact Hj|].
  eapply bind_mget; [exact H|exact Hk|exact Hl|]. eapply bind_mput; [exact H|exact Hi|exact Hj|].
  intros M' HM. eapply gives_mput; [exact HM|exact Hk|exact Hl|auto].
Qed.
Lemma transpose_ok z M m n f : is_mx M m n f -> gives (transpose z M) (fun N => is_mx N n m (fun i j => f j i)) E.
Proof.
  intros H. unfold transpose. rewrite (is_mx_rows _ _ _ _ H), (is_mx_cols _ _ _ _ H).
  destruct (Nat.eqb_spec m n) as [->|ne]; [|apply transposed_ok; exact H].
  apply (gives_upto0 (fun t N => is_mx N n n (fun a b => if (a <? t) || (b <? t) then f b a else f a b))).
  - eapply is_mx_ext; [exact H|]. intros a b Ha Hb. nb.
  - intros j N Hj HN. rewrite (is_mx_rows _ _ _ _ HN). eapply gives_mono.
    + apply (gives_upto (fun t N => is_mx N n n (fun a b =>
        if (a <? j) || (b <? j) || (a =? j) && (b <? t) || (b =? j) && (a <? t) then f b a else f a b)) (n - S j) (S j)).
      * eapply is_mx_ext; [exact HN|]. intros a b Ha Hb. nb.
      * intros i N' Hi HN'. eapply gives_mono; [eapply mswap_ok; [exact HN'|lia|lia|lia|lia]|].
        intros N'' H''. eapply is_mx_ext; [exact H''|]. intros a b Ha Hb. unfold upd. nb.
    + cbv beta. intros N' HN'. eapply is_mx_ext; [exact HN'|]. intros a b Ha Hb. nb.
  - intros N HN. eapply is_mx_ext; [exact HN|]. intros a b Ha Hb. nb.
Qed.
Lemma swapRows_ok M m n f i k : is_mx M m n f -> i < m -> k < m ->
  gives (swapRows M i k) (fun M' => is_mx M' m n (fun a b => f (if a =? i then k else if a =? k then i else a) b)) E.
Proof.
  intros H Hi Hk. unfold swapRows. rewrite (is_mx_cols _ _ _ _ H).
  apply (gives_upto0 (fun t M' => is_mx M' m n (fun a b =>
    if b <? t then f (if a =? i then k else if a =? k then i else a) b else f a b))).
  - eapply is_mx_ext; [exact H|]. intros a b Ha Hb. nb.
  - intros t M' Ht HM. eapply gives_mono; [eapply mswap_ok; [exact HM|assumption..]|].
    intros M'' H''. eapply is_mx_ext; [exact H''|]. intros a b Ha Hb. unfold upd. nb.
  - intros M' HM. eapply is_mx_ext; [exact HM|]. intros a b Ha Hb. nb.
Qed.
Lemma swapColumns_ok M m n f j k : is_mx M m n f -> j < n -> k < n ->
  gives (swapColumns M j k) (fun M' => is_mx M' m n (fun a b => f a (if b =? j then k else if b =? k then j else b))) E.
Proof.
  intros H Hi Hk. unfold swapColumns. rewrite (is_mx_rows _ _ _ _ H).
  apply (gives_upto0 (fun t M' => is_mx M' m n (fun a b =>
    if a <? t then f a (if b =? j then k else if b =? k then j else b) else f a b))).
  - eapply is_mx_ext; [exact H|]. intros a b Ha Hb. nb.
  - intros t M' Ht HM. eapply gives_mono; [eapply mswap_ok; [exact HM|assumption..]|].
    intros M'' H''. eapply is_mx_ext; [exact H''|]. intros a b Ha Hb. unfold upd. nb.
  - intros M' HM. eapply is_mx_ext; [exact HM|]. intros a b Ha Hb. nb.
Qed.
End Plain.
