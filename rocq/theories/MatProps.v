(** Properties C50, C57, C58 and C59: vectors and matrices. *)

From Coq Require Import List Arith ZArith NArith Lia Bool Ring_theory.
From Verif Require Import VecModel VecProofs PermModel PermSpec PermProofs RunModel RunProofs MatModel MatSpec MatProofs MatOps MatOps2 MatArith MatRing MatDiv.
Import ListNotations.
Open Scope nat_scope.

(** * Concrete matrices, for examples *)
Definition mx (c : nat) (rows : list (list Z)) : matrix Z := mk_mat (length rows) c (concat rows).
Definition ent (rows : list (list Z)) (i j : nat) : Z := nth j (nth i rows []) 0%Z.
Definition vent (v : list Z) (i : nat) : Z := nth i v 0%Z.
Lemma is_vec_vent v : is_vec v (length v) (vent v).
Proof. split; [reflexivity|]. intros i Hi. unfold get, vent. apply nth_error_nth'. exact Hi. Qed.
Lemma is_mx_mx c rows : forallb (fun r => length r =? c) rows = true -> is_mx (mx c rows) (length rows) c (ent rows).
Proof.
  intros H. rewrite forallb_forall in H. split; [reflexivity|]. split; [reflexivity|]. cbn [mx mdata].
  induction rows as [|r rows IH]; [split; [reflexivity|intros; cbn in *; lia]|].
  destruct IH as [L G]; [intros; apply H; right; assumption|].
  assert (Lr : length r = c) by (apply Nat.eqb_eq, H; left; reflexivity).
  cbn [concat length]. rewrite app_length, L, Lr. split; [lia|]. intros [|i] j Hi Hj.
  - cbn [Nat.mul Nat.add]. rewrite get_app, Lr. destruct (Nat.ltb_spec j c); [|lia].
    unfold get, ent. cbn [nth]. apply nth_error_nth'. lia.
  - rewrite get_app, Lr. destruct (Nat.ltb_spec (S i * c + j) c); [lia|].
    replace (S i * c + j - c) with (i * c + j) by lia. apply (G i j); lia.
Qed.
Notation exact_Z := (zarith (fun _ => true)).
Definition int32 (z : Z) : bool := ((-2147483648 <=? z) && (z <=? 2147483647))%Z.

(** * C57: entries after structural operations.
    The parameter [E] is arbitrary, so that the operations do not fail at all. *)
Theorem C57_row {A} (M : matrix A) m n f i : is_mx M m n f -> i < m -> gives (mat_row M i) (fun v => is_vec v n (f i)) never.
Proof. exact (row_ok M m n f i). Qed.
Print Assumptions C57_row.
Theorem C57_column {A} (z : A) M m n f j : is_mx M m n f -> j < n -> gives (mat_column z M j) (fun v => is_vec v m (fun i => f i j)) never.
Proof. exact (column_ok z M m n f j). Qed.
Print Assumptions C57_column.
Theorem C57_partial_row {A} (M : matrix A) m n f i j l : is_mx M m n f -> i < m -> j <= l -> l <= n ->
  gives (partial_row M i j l) (fun v => is_vec v (l - j) (fun k => f i (j + k))) never.
Proof. exact (partial_row_ok M m n f i j l). Qed.
Print Assumptions C57_partial_row.
Theorem C57_partial_column {A} (z : A) M m n f j i k : is_mx M m n f -> j < n -> k <= m ->
  gives (partial_column z M j i k) (fun v => is_vec v (k - i) (fun a => f (i + a) j)) never.
Proof. exact (partial_column_ok z M m n f j i k). Qed.
Print Assumptions C57_partial_column.
Theorem C57_set_row {A} (M : matrix A) m n f i v x : is_mx M m n f -> i < m -> is_vec v n x ->
  gives (set_row M i v) (fun M' => is_mx M' m n (fun a b => if a =? i then x b else f a b)) never.
Proof. exact (set_row_ok M m n f i v x). Qed.
Print Assumptions C57_set_row.
Theorem C57_set_column {A} (M : matrix A) m n f j v x : is_mx M m n f -> j < n -> is_vec v m x ->
  gives (set_column M j v) (fun M' => is_mx M' m n (fun a b => if b =? j then x a else f a b)) never.
Proof. exact (set_column_ok M m n f j v x). Qed.
Print Assumptions C57_set_column.
Theorem C57_of_columns {A} (z : A) (b : list (list A)) m c :
  (forall j, j < length b -> exists v, get b j = Some v /\ is_vec v m (c j)) ->
  gives (mat_of_columns z b m) (fun M => is_mx M m (length b) (fun i j => c j i)) never.
Proof. exact (of_columns_ok z b m c). Qed.
Print Assumptions C57_of_columns.
Theorem C57_rows {A} (M : matrix A) m n f : is_mx M m n f ->
  gives (mat_rows M) (fun r => length r = m /\ forall i, i < m -> exists v, get r i = Some v /\ is_vec v n (f i)) never.
Proof. exact (rows_ok M m n f). Qed.
Print Assumptions C57_rows.
Theorem C57_columns {A} (z : A) M m n f : is_mx M m n f ->
  gives (mat_columns z M) (fun r => length r = n /\ forall j, j < n -> exists v, get r j = Some v /\ is_vec v m (fun i => f i j)) never.
Proof. exact (columns_ok z M m n f). Qed.
Print Assumptions C57_columns.
Theorem C57_row_matrix {A} (z : A) v n x : is_vec v n x -> gives (row_matrix z v) (fun M => is_mx M 1 n (fun _ j => x j)) never.
Proof. exact (row_matrix_ok z v n x). Qed.
Print Assumptions C57_row_matrix.
Theorem C57_column_matrix {A} (z : A) v n x : is_vec v n x -> gives (column_matrix z v) (fun M => is_mx M n 1 (fun i _ => x i)) never.
Proof. exact (column_matrix_ok z v n x). Qed.
Print Assumptions C57_column_matrix.
Theorem C57_block {A} (z : A) M m n f i0 j0 i1 j1 : is_mx M m n f -> i0 <= i1 <= m -> j0 <= j1 <= n ->
  gives (block z M i0 j0 i1 j1) (fun N => is_mx N (i1 - i0) (j1 - j0) (fun i j => f (i0 + i) (j0 + j))) never.
Proof. exact (block_ok z M m n f i0 j0 i1 j1). Qed.
Print Assumptions C57_block.
Theorem C57_get_block {A} (M : matrix A) m n f D r c g k l : is_mx M m n f -> is_mx D r c g -> k + r <= m -> l + c <= n ->
  gives (get_block M D k l) (fun N => is_mx N r c (fun i j => f (k + i) (l + j))) never.
Proof. exact (get_block_ok M m n f D r c g k l). Qed.
Print Assumptions C57_get_block.
Theorem C57_set_block {A} (M : matrix A) m n f k l D r c g : is_mx M m n f -> is_mx D r c g -> k + r <= m -> l + c <= n ->
  gives (set_block M k l D) (fun N => is_mx N m n (fun i j =>
    if (k <=? i) && (i <? k + r) && (l <=? j) && (j <? l + c) then g (i - k) (j - l) else f i j)) never.
Proof. exact (set_block_ok M m n f k l D r c g). Qed.
Print Assumptions C57_set_block.
Theorem C57_transposed_block {A} (z : A) M m n f i0 j0 i1 j1 : is_mx M m n f -> i0 <= i1 <= n -> j0 <= j1 <= m ->
  gives (transposed_block z M i0 j0 i1 j1) (fun N => is_mx N (i1 - i0) (j1 - j0) (fun i j => f (j0 + j) (i0 + i))) never.
Proof. exact (transposed_block_ok z M m n f i0 j0 i1 j1). Qed.
Print Assumptions C57_transposed_block.
Theorem C57_transposed {A} (z : A) M m n f : is_mx M m n f -> gives (transposed z M) (fun N => is_mx N n m (fun i j => f j i)) never.
Proof. exact (transposed_ok z M m n f). Qed.
Print Assumptions C57_transposed.
Theorem C57_transpose {A} (z : A) M m n f : is_mx M m n f -> gives (transpose z M) (fun N => is_mx N n m (fun i j => f j i)) never.
Proof. exact (transpose_ok z M m n f). Qed.
Print Assumptions C57_transpose.
Theorem C57_swapRows {A} (M : matrix A) m n f i k : is_mx M m n f -> i < m -> k < m ->
  gives (swapRows M i k) (fun M' => is_mx M' m n (fun a b => f (if a =? i then k else if a =? k then i else a) b)) never.
Proof. exact (swapRows_ok M m n f i k). Qed.
Print Assumptions C57_swapRows.
Theorem C57_swapColumns {A} (M : matrix A) m n f j k : is_mx M m n f -> j < n -> k < n ->
  gives (swapColumns M j k) (fun M' => is_mx M' m n (fun a b => f a (if b =? j then k else if b =? k then j else b))) never.
Proof. exact (swapColumns_ok M m n f j k). Qed.
Print Assumptions C57_swapColumns.
(** below 2^32 entries only; beyond that the sizes computed in 32 bits are wrong *)
Theorem C57_add_row_partial {A} (z : A) M m n f v x : is_mx M m n f -> is_vec v n x -> (N.of_nat (S m * n) < 4294967296)%N ->
  gives (add_row z M v) (fun N => is_mx N (S m) n (fun i j => if i =? m then x j else f i j)) never.
Proof. exact (add_row_ok z M m n f v x). Qed.
Print Assumptions C57_add_row_partial.
Theorem C57_add_row_large {A} (z : A) M m n f v x : is_mx M m n f -> is_vec v n x -> (4294967296 <= N.of_nat (S m * n))%N ->
  add_row z M v = Fail Range.
Proof. exact (add_row_large z M m n f v x). Qed.
Print Assumptions C57_add_row_large.
Theorem C57_add_column_partial {A} (z : A) M m n f v x : is_mx M m n f -> is_vec v m x -> (N.of_nat (m * S n) < 4294967296)%N ->
  gives (add_column z M v) (fun N => is_mx N m (S n) (fun i j => if j =? n then x i else f i j)) never.
Proof. exact (add_column_ok z M m n f v x). Qed.
Print Assumptions C57_add_column_partial.
Theorem C57_eraseRow_partial {A} (M : matrix A) m n f i : is_mx M m n f -> i < m -> (N.of_nat (m * n) < 4294967296)%N ->
  gives (eraseRow M i) (fun N => is_mx N (m - 1) n (fun a b => f (if a <? i then a else S a) b)) never.
Proof. exact (eraseRow_ok M m n f i). Qed.
Print Assumptions C57_eraseRow_partial.
Theorem C57_eraseColumn {A} (M : matrix A) m n f j : is_mx M m n f -> j < n ->
  gives (eraseColumn M j) (fun N => is_mx N m (n - 1) (fun a b => f a (if b <? j then b else S b))) never.
Proof. exact (eraseColumn_ok M m n f j). Qed.
Print Assumptions C57_eraseColumn.
(** the permutation may act on fewer columns than there are *)
Theorem C57_pull_back_columns {A} (z : A) M m n k f pi : is_perm k pi -> k <= n -> is_mx M m n f ->
  gives (pull_back_columns z M pi) (fun N => is_mx N m n (fun a b => f a (if b <? k then nth b pi 0 else b))) never.
Proof. intros P L H. exact (pull_back_columns_ok z m n k f pi P L M H). Qed.
Print Assumptions C57_pull_back_columns.
Theorem C57_conjugate {A} (z : A) M n f pi : is_mx M n n f -> is_perm n pi ->
  gives (conjugate z pi M) (fun N => exists g, is_mx N n n g /\
     forall i j a b, get pi i = Some a -> get pi j = Some b -> g a b = f i j) never.
Proof. exact (conjugate_ok z M n f pi). Qed.
Print Assumptions C57_conjugate.
Theorem C57_inv_conjugate {A} (z : A) M n f pi : is_mx M n n f -> is_perm n pi ->
  gives (inv_conjugate z pi M) (fun N => is_mx N n n (fun i j => f (nth i pi 0) (nth j pi 0))) never.
Proof. exact (inv_conjugate_ok z M n f pi). Qed.
Print Assumptions C57_inv_conjugate.

Definition r3 : list (list Z) := [[1; 2; 3; 4]; [5; 6; 7; 8]; [9; 10; 11; 12]]%Z.
Definition m3 := mx 4 r3.
Lemma m3_ok : is_mx m3 3 4 (ent r3).
Proof. exact (is_mx_mx 4 r3 eq_refl). Qed.
Definition sq := mx 3 [[1; 2; 3]; [4; 5; 6]; [7; 8; 9]]%Z.
Lemma sq_ok : is_mx sq 3 3 (ent [[1; 2; 3]; [4; 5; 6]; [7; 8; 9]]%Z).
Proof. exact (is_mx_mx 3 [[1; 2; 3]; [4; 5; 6]; [7; 8; 9]]%Z eq_refl). Qed.
Example C57_ex : is_mx m3 3 4 (ent r3) /\
  mat_row m3 1 = Ok [5; 6; 7; 8]%Z /\ mat_column 0%Z m3 2 = Ok [3; 7; 11]%Z /\ partial_row m3 2 1 3 = Ok [10; 11]%Z /\
  partial_column 0%Z m3 3 1 3 = Ok [8; 12]%Z /\
  set_row m3 0 [0; 0; 1; 1]%Z = Ok (mx 4 [[0; 0; 1; 1]; [5; 6; 7; 8]; [9; 10; 11; 12]]%Z) /\
  set_column m3 1 [0; 1; 0]%Z = Ok (mx 4 [[1; 0; 3; 4]; [5; 1; 7; 8]; [9; 0; 11; 12]]%Z) /\
  mat_of_columns 0%Z [[1; 2]; [3; 4]; [5; 6]]%Z 2 = Ok (mx 3 [[1; 3; 5]; [2; 4; 6]]%Z) /\
  mat_rows m3 = Ok r3 /\ mat_columns 0%Z m3 = Ok [[1; 5; 9]; [2; 6; 10]; [3; 7; 11]; [4; 8; 12]]%Z /\
  row_matrix 0%Z [3; 4]%Z = Ok (mx 2 [[3; 4]]%Z) /\ column_matrix 0%Z [3; 4]%Z = Ok (mx 1 [[3]; [4]]%Z) /\
  block 0%Z m3 1 1 3 3 = Ok (mx 2 [[6; 7]; [10; 11]]%Z) /\ get_block m3 (mx 2 [[0; 0]]%Z) 2 1 = Ok (mx 2 [[10; 11]]%Z) /\
  set_block m3 1 2 (mx 2 [[0; 0]; [1; 1]]%Z) = Ok (mx 4 [[1; 2; 3; 4]; [5; 6; 0; 0]; [9; 10; 1; 1]]%Z) /\
  transposed_block 0%Z m3 2 0 4 2 = Ok (mx 2 [[3; 7]; [4; 8]]%Z).
Proof. split; [exact m3_ok|]. repeat split; vm_compute; reflexivity. Qed.
Example C57_ex2 :
  transposed 0%Z m3 = Ok (mx 3 [[1; 5; 9]; [2; 6; 10]; [3; 7; 11]; [4; 8; 12]]%Z) /\
  transpose 0%Z sq = Ok (mx 3 [[1; 4; 7]; [2; 5; 8]; [3; 6; 9]]%Z) /\
  swapRows m3 0 2 = Ok (mx 4 [[9; 10; 11; 12]; [5; 6; 7; 8]; [1; 2; 3; 4]]%Z) /\
  swapColumns m3 0 2 = Ok (mx 4 [[3; 2; 1; 4]; [7; 6; 5; 8]; [11; 10; 9; 12]]%Z) /\
  add_row 0%Z sq [0; 1; 2]%Z = Ok (mx 3 [[1; 2; 3]; [4; 5; 6]; [7; 8; 9]; [0; 1; 2]]%Z) /\
  add_column 0%Z sq [0; 1; 2]%Z = Ok (mx 4 [[1; 2; 3; 0]; [4; 5; 6; 1]; [7; 8; 9; 2]]%Z) /\
  eraseRow m3 1 = Ok (mx 4 [[1; 2; 3; 4]; [9; 10; 11; 12]]%Z) /\
  eraseColumn m3 1 = Ok (mx 3 [[1; 3; 4]; [5; 7; 8]; [9; 11; 12]]%Z) /\
  pull_back_columns 0%Z m3 [2; 0; 1]%nat = Ok (mx 4 [[3; 1; 2; 4]; [7; 5; 6; 8]; [11; 9; 10; 12]]%Z) /\
  conjugate 0%Z [1; 2; 0]%nat sq = Ok (mx 3 [[9; 7; 8]; [3; 1; 2]; [6; 4; 5]]%Z) /\
  inv_conjugate 0%Z [1; 2; 0]%nat sq = Ok (mx 3 [[5; 6; 4]; [8; 9; 7]; [2; 3; 1]]%Z).
Proof. repeat split; vm_compute; reflexivity. Qed.
Example C57_perm_ex : is_perm 3 [2; 0; 1] /\ is_perm 3 [1; 2; 0].
Proof. split; (split; [reflexivity|split; [repeat constructor; cbn; intuition lia|cbn; intros; lia]]). Qed.
(** 65536 rows of 65536 entries: there is a matrix and a row that add_row spoils *)
Theorem C57_add_row_refuted : exists (M : matrix Z) m n f v x, is_mx M m n f /\ is_vec v n x /\
  ~ gives (add_row 0%Z M v) (fun N => is_mx N (S m) n (fun i j => if i =? m then x j else f i j)) never.
Proof.
  set (b := N.to_nat 65536). assert (B : N.of_nat b = 65536%N) by apply N2Nat.id.
  exists (mat_fill b b 0%Z), b, b, (fun _ _ => 0%Z), (repeat 0%Z b), (fun _ => 0%Z).
  split; [apply fill_ok|]. split; [apply is_vec_repeat|].
  rewrite (add_row_large 0%Z _ b b _ (repeat 0%Z b) (fun _ => 0%Z) (fill_ok b b 0%Z) (is_vec_repeat 0%Z b)).
  - intros H. exact H.
  - rewrite Nat2N.inj_mul, Nat2N.inj_succ, B. discriminate.
Qed.
Print Assumptions C57_add_row_refuted.

(** * C58: arithmetic operations, over any type of entries whose operations [R] compute
    [add], [sub], [mul], [opp] or fail as allowed by [E] *)
Section Arith.
Context {A : Type} {E : err -> Prop} (R : arith A) (add sub mul : A -> A -> A) (opp : A -> A).
Notation ok := (arith_ok R add sub mul opp E).
Notation sum := (fsum add (a0 R)).

Theorem C58_vector_operations : ok -> forall v w n x y c, is_vec v n x -> is_vec w n y ->
  gives (vec_add R v w) (fun u => is_vec u n (fun i => add (x i) (y i))) E /\
  gives (vec_sub R v w) (fun u => is_vec u n (fun i => sub (x i) (y i))) E /\
  gives (vec_negate_add R v w) (fun u => is_vec u n (fun i => sub (y i) (x i))) E /\
  gives (vec_scale R v c) (fun u => is_vec u n (fun i => mul (x i) c)) E /\
  gives (vec_negate R v) (fun u => is_vec u n (fun i => opp (x i))) E /\
  gives (vec_dot R v w) (eq (sum n (fun i => mul (x i) (y i)))) E /\
  (vec_is_zero R v = true <-> forall i, i < n -> x i = a0 R).
Proof.
  intros HR v w n x y c Hv Hw. split; [eapply vec_add_ok; eauto|]. split; [eapply vec_sub_ok; eauto|].
  split; [eapply vec_negate_add_ok; eauto|]. split; [eapply vec_scale_ok; eauto|]. split; [eapply vec_negate_ok; eauto|].
  split; [eapply vec_dot_ok; eauto|]. eapply vec_is_zero_ok; eauto.
Qed.
Theorem C58_matrix_sums : ok -> forall M N m n f g c, is_mx M m n f -> is_mx N m n g ->
  gives (mat_add R M N) (fun P => is_mx P m n (fun i j => add (f i j) (g i j))) E /\
  gives (mat_sub R M N) (fun P => is_mx P m n (fun i j => sub (f i j) (g i j))) E /\
  gives (mat_scale R M c) (fun P => is_mx P m n (fun i j => mul (f i j) c)) E /\
  gives (mat_negate R M) (fun P => is_mx P m n (fun i j => opp (f i j))) E /\
  gives (add_scalar R M c) (fun P => is_mx P m n (fun i j => if i =? j then add (f i j) c else f i j)) E /\
  (mat_is_zero R M = true <-> feq m n f (fun _ _ => a0 R)).
Proof.
  intros HR M N m n f g c HM HN. split; [eapply mat_add_ok; eauto|]. split; [eapply mat_sub_ok; eauto|].
  split; [eapply mat_scale_ok; eauto|]. split; [eapply mat_negate_ok; eauto|]. split; [eapply add_scalar_ok; eauto|]. eapply mat_is_zero_ok; eauto.
Qed.
Theorem C58_identity : ok -> forall n,
  gives (mat_id R n) (fun M => is_mx M n n (fun i j => if i =? j then a1 R else a0 R)) E /\
  gives (standard_basis R n) (fun b => length b = n /\
    forall i, i < n -> exists v, get b i = Some v /\ is_vec v n (fun j => if i =? j then a1 R else a0 R)) E.
Proof. intros HR n. split; [eapply mat_id_ok; eauto|eapply standard_basis_ok; eauto]. Qed.
Theorem C58_products : ok -> forall M N m n p f g, is_mx M m n f -> is_mx N n p g ->
  gives (mat_mul R M N) (fun P => is_mx P m p (fun i k => sum n (fun j => mul (f i j) (g j k)))) E /\
  (forall w x, is_vec w n x -> gives (mat_apply R M w) (fun u => is_vec u m (fun i => sum n (fun j => mul (f i j) (x j)))) E) /\
  (forall w x, is_vec w m x -> gives (right_prod R M w) (fun u => is_vec u n (fun j => sum m (fun i => mul (x i) (f i j)))) E).
Proof.
  intros HR M N m n p f g HM HN. split; [eapply mat_mul_ok; eauto|].
  split; intros; [eapply mat_apply_ok; eauto|eapply right_prod_ok; eauto].
Qed.
(** the hypotheses on zero and one are needed as the code skips operations for these factors *)
Theorem C58_row_column_operations : ok -> (forall x y, add x (mul (a0 R) y) = x) -> (forall x, mul x (a1 R) = x) ->
  forall M m n f c, is_mx M m n f ->
  (forall i k, i < m -> k < m -> gives (rowOperation R M i k c)
     (fun N => is_mx N m n (fun a b => if a =? i then add (f i b) (mul c (f k b)) else f a b)) E) /\
  (forall j k, j < n -> k < n -> gives (columnOperation R M j k c)
     (fun N => is_mx N m n (fun a b => if b =? j then add (f a j) (mul c (f a k)) else f a b)) E) /\
  (forall i, i < m -> gives (rowMultiply R M i c) (fun N => is_mx N m n (fun a b => if a =? i then mul (f a b) c else f a b)) E) /\
  (forall j, j < n -> gives (columnMultiply R M j c) (fun N => is_mx N m n (fun a b => if b =? j then mul (f a b) c else f a b)) E).
Proof.
  intros HR lz lo M m n f c HM. split; [intros; eapply rowOperation_ok; eauto|]. split; [intros; eapply columnOperation_ok; eauto|].
  split; [intros; eapply rowMultiply_ok; eauto|intros; eapply columnMultiply_ok; eauto].
Qed.
Theorem C58_apply_on_range : ok -> forall M m n f ops r g, is_mx M m n f -> is_mx ops r r g ->
  (forall i, i + r <= m -> gives (row_apply R M ops i) (fun N => is_mx N m n (fun a b =>
     if (i <=? a) && (a <? i + r) then sum r (fun k => mul (g (a - i) k) (f (i + k) b)) else f a b)) E) /\
  (forall j, j + r <= n -> gives (column_apply R M ops j) (fun N => is_mx N m n (fun a b =>
     if (j <=? b) && (b <? j + r) then sum r (fun l => mul (f a (j + l)) (g l (b - j))) else f a b)) E).
Proof. intros HR M m n f ops r g HM HO. split; intros; [eapply row_apply_ok; eauto|eapply column_apply_ok; eauto]. Qed.
End Arith.
Print Assumptions C58_vector_operations.
Print Assumptions C58_matrix_sums.
Print Assumptions C58_identity.
Print Assumptions C58_products.
Print Assumptions C58_row_column_operations.
Print Assumptions C58_apply_on_range.
(** signed integers of any width are an instance *)
Theorem C58_integers fits : arith_ok (zarith fits) Z.add Z.sub Z.mul Z.opp (overflows fits).
Proof. exact (zarith_ok fits). Qed.
Print Assumptions C58_integers.
Example C58_ex : let R := zarith int32 in
  vec_add R [1; 2]%Z [5; -7]%Z = Ok [6; -5]%Z /\ vec_sub R [1; 2]%Z [5; -7]%Z = Ok [-4; 9]%Z /\
  vec_negate_add R [1; 2]%Z [5; -7]%Z = Ok [4; -9]%Z /\ vec_scale R [1; 2]%Z 3%Z = Ok [3; 6]%Z /\
  vec_scale R [1; 2]%Z 1073741824%Z = Fail Overflow /\ vec_negate R [1; 2]%Z = Ok [-1; -2]%Z /\
  vec_dot R [1; 2]%Z [5; -7]%Z = Ok (-9)%Z /\ vec_is_zero R [0; 1]%Z = false /\ mat_is_zero R (mx 2 [[0; 0]]%Z) = true /\
  mat_add R sq sq = Ok (mx 3 [[2; 4; 6]; [8; 10; 12]; [14; 16; 18]]%Z) /\ mat_sub R sq sq = Ok (mat_fill 3 3 0%Z) /\
  mat_scale R sq 2%Z = Ok (mx 3 [[2; 4; 6]; [8; 10; 12]; [14; 16; 18]]%Z) /\
  mat_negate R sq = Ok (mx 3 [[-1; -2; -3]; [-4; -5; -6]; [-7; -8; -9]]%Z) /\
  add_scalar R m3 10%Z = Ok (mx 4 [[11; 2; 3; 4]; [5; 16; 7; 8]; [9; 10; 21; 12]]%Z) /\
  mat_id R 2 = Ok (mx 2 [[1; 0]; [0; 1]]%Z) /\ standard_basis R 2 = Ok [[1; 0]; [0; 1]]%Z /\
  mat_mul R sq m3 = Ok (mx 4 [[38; 44; 50; 56]; [83; 98; 113; 128]; [128; 152; 176; 200]]%Z) /\
  mat_apply R m3 [1; 0; 0; 1]%Z = Ok [5; 13; 21]%Z /\ right_prod R m3 [1; 0; 1]%Z = Ok [10; 12; 14; 16]%Z.
Proof. repeat split; vm_compute; reflexivity. Qed.
Example C58_ex2 : let R := zarith int32 in
  rowOperation R sq 0 2 2%Z = Ok (mx 3 [[15; 18; 21]; [4; 5; 6]; [7; 8; 9]]%Z) /\
  columnOperation R sq 0 2 2%Z = Ok (mx 3 [[7; 2; 3]; [16; 5; 6]; [25; 8; 9]]%Z) /\
  rowMultiply R sq 1 (-1)%Z = Ok (mx 3 [[1; 2; 3]; [-4; -5; -6]; [7; 8; 9]]%Z) /\
  columnMultiply R sq 1 (-1)%Z = Ok (mx 3 [[1; -2; 3]; [4; -5; 6]; [7; -8; 9]]%Z) /\
  row_apply R sq (mx 2 [[1; 1]; [0; 2]]%Z) 1 = Ok (mx 3 [[1; 2; 3]; [11; 13; 15]; [14; 16; 18]]%Z) /\
  column_apply R sq (mx 2 [[1; 1]; [0; 2]]%Z) 1 = Ok (mx 3 [[1; 2; 8]; [4; 5; 17]; [7; 8; 26]]%Z).
Proof. repeat split; vm_compute; reflexivity. Qed.

(** * C50: inverses of unitriangular matrices over a commutative ring *)
Section Triangular.
Context {A : Type} {E : err -> Prop} (R : arith A) (add sub mul : A -> A -> A) (opp : A -> A).
Notation zero := (a0 R).
Notation one := (a1 R).
Notation ring := (ring_theory zero one add mul sub opp (@eq A)).
Notation ok := (arith_ok R add sub mul opp E).
Notation times n f g := (fun i k => fsum add zero n (fun j => mul (f i j) (g j k))).
Notation id := (fun i j => if i =? j then one else zero).

Theorem C50_upper : ring -> ok -> forall M n f, is_mx M n n f ->
  (forall i j, i < n -> j < i -> f i j = zero) -> (forall i, i < n -> f i i = one) ->
  gives (inverse_upper_triangular R M) (fun P => exists g, is_mx P n n g /\ (forall i j, i < n -> j < i -> g i j = zero) /\
     feq n n (times n f g) id /\ feq n n (times n g f) id) E.
Proof. intros RT HR M n f. exact (upper_inverse zero one add mul sub opp RT R HR eq_refl eq_refl M n f). Qed.
Theorem C50_lower : ring -> ok -> forall M n f, is_mx M n n f ->
  (forall i j, j < n -> i < j -> f i j = zero) -> (forall i, i < n -> f i i = one) ->
  gives (inverse_lower_triangular R M) (fun P => exists g, is_mx P n n g /\ (forall i j, j < n -> i < j -> g i j = zero) /\
     feq n n (times n f g) id /\ feq n n (times n g f) id) E.
Proof. intros RT HR M n f. exact (lower_inverse zero one add mul sub opp RT R HR eq_refl eq_refl M n f). Qed.
Theorem C50_not_square : forall M m n f, is_mx M m n f -> m <> n ->
  inverse_upper_triangular R M = Fail Thrown /\ inverse_lower_triangular R M = Fail Thrown.
Proof. intros M m n f HM H. split; [exact (upper_throws_shape R M m n f HM H)|exact (lower_throws_shape R M m n f HM H)]. Qed.
(** no result; if arithmetic does not fail, then an exception *)
Theorem C50_not_unitriangular : ok -> forall M n f i, is_mx M n n f -> i < n -> f i i <> one ->
  gives (inverse_upper_triangular R M) (fun _ => False) (fun e => e = Thrown \/ E e) /\
  gives (inverse_lower_triangular R M) (fun _ => False) (fun e => e = Thrown \/ E e).
Proof.
  intros HR M n f i HM Hi H. split; [exact (upper_throws one add mul sub opp R HR eq_refl M n f i HM Hi H)|].
  exact (lower_throws one add mul sub opp R HR eq_refl M n f i HM Hi H).
Qed.
End Triangular.
Print Assumptions C50_upper.
Print Assumptions C50_lower.
Print Assumptions C50_not_square.
Print Assumptions C50_not_unitriangular.
Definition tri := mx 4 [[1; 2; 3; 4]; [0; 1; 5; 6]; [0; 0; 1; 7]; [0; 0; 0; 1]]%Z.
Example C50_ex :
  ring_theory 0%Z 1%Z Z.add Z.mul Z.sub Z.opp eq /\
  inverse_upper_triangular exact_Z tri = Ok (mx 4 [[1; -2; 7; -41]; [0; 1; -5; 29]; [0; 0; 1; -7]; [0; 0; 0; 1]]%Z) /\
  inverse_upper_triangular exact_Z sq = Fail Thrown /\ inverse_upper_triangular exact_Z m3 = Fail Thrown /\
  inverse_lower_triangular (zarith int32) (mx 3 [[1; 0; 0]; [2; 1; 0]; [3; 4; 1]]%Z) = Ok (mx 3 [[1; 0; 0]; [-2; 1; 0]; [5; -4; 1]]%Z).
Proof. split; [exact InitialRing.Zth|]. repeat split; vm_compute; reflexivity. Qed.

(** * C59: division of vectors and matrices by a number *)
Theorem C59_exact_division fits v n x c : is_vec v n x ->
  gives (vec_div fits v c) (fun w => c <> 0%Z /\ exists y, is_vec w n y /\ forall i, i < n -> x i = (c * y i)%Z)
   (fun e => e = Thrown /\ (c = 0%Z \/ exists i, i < n /\ ~ (c | x i)%Z) \/ overflows fits e).
Proof. exact (vec_div_ok fits v n x c). Qed.
Print Assumptions C59_exact_division.
Theorem C59_division fits v n x c : is_vec v n x ->
  gives (vec_divide fits v c) (fun w => c <> 0%Z /\ exists y, is_vec w n y /\ forall i, i < n -> (0 <= x i - c * y i < Z.abs c)%Z)
   (fun e => e = Thrown /\ c = 0%Z \/ overflows fits e).
Proof. exact (vec_divide_ok fits v n x c). Qed.
Print Assumptions C59_division.
Theorem C59_remainder fits v n x c : is_vec v n x ->
  gives (vec_mod fits v c) (fun w => c <> 0%Z /\ exists y, is_vec w n y /\ forall i, i < n -> (0 <= y i < Z.abs c)%Z /\ (c | x i - y i)%Z)
   (fun e => e = Thrown /\ c = 0%Z \/ overflows fits e).
Proof. exact (vec_mod_ok fits v n x c). Qed.
Print Assumptions C59_remainder.
Theorem C59_matrix_division fits M m n f c : is_mx M m n f ->
  gives (mat_div fits M c) (fun N => c <> 0%Z /\ exists g, is_mx N m n g /\ feq m n f (fun i j => (c * g i j)%Z))
   (fun e => e = Thrown /\ (c = 0%Z \/ exists i j, i < m /\ j < n /\ ~ (c | f i j)%Z) \/ overflows fits e).
Proof. exact (mat_div_ok fits M m n f c). Qed.
Print Assumptions C59_matrix_division.
Theorem C59_divisible fits M m n f c : c <> 0%Z -> is_mx M m n f ->
  gives (divisible fits M c) (fun b => b = true <-> forall i j, i < m -> j < n -> (c | f i j)%Z) (overflows fits).
Proof. exact (divisible_ok fits M m n f c). Qed.
Print Assumptions C59_divisible.
Example C59_ex :
  vec_div int32 [6; -9; 0]%Z (-3)%Z = Ok [-2; 3; 0]%Z /\ vec_div int32 [6; -8]%Z 3%Z = Fail Thrown /\ vec_div int32 [6]%Z 0%Z = Fail Thrown /\
  vec_div int32 [-2147483648]%Z (-1)%Z = Fail Overflow /\
  vec_divide int32 [7; -7]%Z 3%Z = Ok [2; -3]%Z /\ vec_divide int32 [7; -7]%Z (-3)%Z = Ok [-2; 3]%Z /\
  vec_mod int32 [7; -7]%Z (-3)%Z = Ok [1; 2]%Z /\ mat_div int32 (mx 2 [[4; 6]]%Z) 2%Z = Ok (mx 2 [[2; 3]]%Z) /\
  divisible int32 (mx 2 [[4; 6]]%Z) 2%Z = Ok true /\ divisible int32 (mx 2 [[4; 6]]%Z) 4%Z = Ok false.
Proof. repeat split; vm_compute; reflexivity. Qed.
