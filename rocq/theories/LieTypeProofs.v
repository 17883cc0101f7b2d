(** Cartan matrices of Lie types. *)

From Coq Require Import List Arith ZArith Bool Lia Permutation.
From Verif Require Import VecModel VecProofs RunModel RunProofs MatModel MatSpec MatProofs LieTypeModel LieTypeSpec.
Import ListNotations.
Local Open Scope nat_scope.

Ltac split_tests :=
  repeat (cbn [andb orb negb Bool.eqb existsb fst snd bond];
    match goal with
    | |- context [Nat.ltb ?a ?b] => destruct (Nat.ltb_spec a b); try lia
    | |- context [Nat.eqb ?a ?b] => destruct (Nat.eqb_spec a b); try lia
    | |- context [Z.eqb ?a ?b] => destruct (Z.eqb_spec a b); try lia
    | |- context [Z.ltb ?a ?b] => destruct (Z.ltb_spec a b); try lia
    end); cbn [andb orb negb Bool.eqb bond]; try lia; try reflexivity.

Lemma sub32_le a b : (Z.of_nat a < 4294967296)%Z -> b <= a -> sub32 a b = Z.of_nat (a - b).
Proof. intros H L. unfold sub32. rewrite Z.mod_small by lia. lia. Qed.

(** the pair of tests made by Cartan_entry, for a factor which is not a torus *)
Definition entry_of (X : letter) (r i j : nat) : Z :=
  let '(min, d) := if i <? j then (i, j - i) else (j, i - j) in
  if 2 <? d then 0%Z else dispatch X r min d (i <? j).
Lemma entry_std X r i j : X <> tT -> valid_rank X r -> (Z.of_nat r < 4294967296)%Z -> i < r -> j < r -> entry_of X r i j = std X r i j.
Proof.
  intros NT V B Hi Hj. unfold entry_of.
  destruct (lt_eq_lt_dec i j) as [[L| ->]|L].
  3: rewrite (proj2 (Nat.ltb_ge i j)) by lia.
  2: { rewrite Nat.ltb_irrefl, Nat.sub_diag. unfold dispatch, std. rewrite !Nat.eqb_refl. reflexivity. }
  1: rewrite (proj2 (Nat.ltb_lt i j)) by exact L.
  all: unfold dispatch, std; rewrite (proj2 (Nat.eqb_neq i j)) by lia; unfold line, is_edge, is_pair, bond.
  all: destruct X; try congruence; cbn in V; unfold leqb; cbn [code Z.eqb Z.ltb Z.compare Pos.eqb Pos.compare Pos.compare_cont orb Bool.eqb].
  all: try rewrite (sub32_le r 3) by lia; try rewrite (sub32_le r 2) by lia.
  all: split_tests.
Qed.

Lemma simple_entry_ok s i j : valid_rank (fst s) (snd s) -> (Z.of_nat (snd s) < 4294967296)%Z -> i < snd s -> j < snd s ->
  simple_entry s i j = simple_matrix s i j.
Proof.
  destruct s as [X r]. cbn [fst snd]. intros V B Hi Hj. unfold simple_entry, simple_matrix. cbn [fst snd].
  assert (Q : X = tT \/ X <> tT) by (destruct X; auto; right; discriminate). destruct Q as [->|NT]; [reflexivity|].
  pose proof (entry_std X r i j NT V B Hi Hj) as E. unfold entry_of in E.
  assert (L : leqb X tT = false) by (destruct X; try reflexivity; congruence). rewrite L.
  destruct (if i <? j then (i, j - i) else (j, i - j)) as [m d]. rewrite E. destruct X; try reflexivity. congruence.
Qed.
Definition small (lt : lietype) : Prop := Forall (fun s => (Z.of_nat (snd s) < 4294967296)%Z) lt.
Ltac two_apart := match goal with |- context [2 <? ?x] => destruct (2 <? x); reflexivity end.
Lemma lt_scan_ok lt : valid_type lt -> small lt -> forall i j,
  lt_entry lt i j = block_diagonal lt i j.
Proof.
  intros V SM i j. unfold lt_entry. revert i j. induction lt as [|[X r] lt IH]; intros i j.
  - cbn [lt_scan block_diagonal]. destruct (i <? j); two_apart.
  - inversion V as [|? ? V1 V2]. inversion SM as [|? ? S1 S2]. subst. cbn [fst snd] in *. specialize (IH V2 S2).
    cbn [block_diagonal fst snd lt_scan].
    destruct (Nat.ltb_spec i r) as [Li|Li], (Nat.ltb_spec j r) as [Lj|Lj]; cbn [andb orb].
    + rewrite <- (simple_entry_ok (X, r) i j V1 S1 Li Lj). unfold simple_entry. cbn [fst snd].
      destruct (Nat.ltb_spec i j).
      * rewrite (proj2 (Nat.leb_gt r i)) by lia. rewrite (proj2 (Nat.leb_gt r (i + (j - i)))) by lia. cbn [orb]. destruct (leqb X tT); [two_apart|reflexivity].
      * rewrite (proj2 (Nat.leb_gt r j)) by lia. rewrite (proj2 (Nat.leb_gt r (j + (i - j)))) by lia. cbn [orb]. destruct (leqb X tT); [two_apart|reflexivity].
    + rewrite (proj2 (Nat.ltb_lt i j)) by lia. rewrite (proj2 (Nat.leb_gt r i)) by lia. rewrite (proj2 (Nat.leb_le r (i + (j - i)))) by lia. cbn [orb]. two_apart.
    + rewrite (proj2 (Nat.ltb_ge i j)) by lia. rewrite (proj2 (Nat.leb_gt r j)) by lia. rewrite (proj2 (Nat.leb_le r (j + (i - j)))) by lia. cbn [orb]. two_apart.
    + rewrite <- IH. destruct (Nat.ltb_spec i j).
      * rewrite (proj2 (Nat.ltb_lt (i - r) (j - r))) by lia. rewrite (proj2 (Nat.leb_le r i)) by lia. replace (j - r - (i - r)) with (j - i) by lia. reflexivity.
      * rewrite (proj2 (Nat.ltb_ge (i - r) (j - r))) by lia. rewrite (proj2 (Nat.leb_le r j)) by lia. replace (i - r - (j - r)) with (i - j) by lia. reflexivity.
Qed.
Lemma lt_entry_ok lt i j : valid_type lt -> small lt -> lt_entry lt i j = block_diagonal lt i j.
Proof. intros V SM. apply lt_scan_ok; auto. Qed.

(** ** Matrices filled entry by entry *)
Definition in_block (off r i j : nat) : bool := (off <=? i) && (i <? off + r) && (off <=? j) && (j <? off + r).
Lemma fill_block_ok off r g M n f : off + r <= n -> is_mx M n n f ->
  gives (fill_block off r g M) (fun M1 => is_mx M1 n n (fun i j => if in_block off r i j then g (i - off) (j - off) else f i j)) never.
Proof.
  intros L H. unfold fill_block.
  apply (gives_upto0 (fun k M1 => is_mx M1 n n (fun i j => if in_block off r i j && (i <? off + k) then g (i - off) (j - off) else f i j))).
  - eapply is_mx_ext; [exact H|]. intros i j Hi Hj. cbv beta. unfold in_block.
    destruct (Nat.leb_spec off i), (Nat.ltb_spec i (off + 0)); cbn; rewrite ?andb_false_r; try reflexivity; lia.
  - intros k M1 Hk H1.
    apply (gives_upto0 (fun l M2 => is_mx M2 n n (fun i j =>
      if in_block off r i j && ((i <? off + k) || (i =? off + k) && (j <? off + l)) then g (i - off) (j - off) else f i j))).
    + eapply is_mx_ext; [exact H1|]. intros i j Hi Hj. cbv beta. unfold in_block.
      destruct (Nat.leb_spec off j), (Nat.ltb_spec j (off + 0)); try lia; rewrite ?andb_false_r, ?orb_false_r; reflexivity.
    + intros l M2 Hl H2. apply (gives_mput M2 n n _ (off + k) (off + l) _ _ H2); [lia|lia|].
      intros M3 H3. eapply is_mx_ext; [exact H3|]. intros i j Hi Hj. unfold upd. cbv beta.
      destruct (Nat.eqb_spec i (off + k)) as [->|Ni]; cbn [andb].
      * destruct (Nat.eqb_spec j (off + l)) as [->|Nj].
        -- unfold in_block. destruct (Nat.leb_spec off (off + k)), (Nat.ltb_spec (off + k) (off + r)), (Nat.leb_spec off (off + l)), (Nat.ltb_spec (off + l) (off + r)), (Nat.ltb_spec (off + l) (off + Datatypes.S l)); try lia. rewrite orb_true_r. cbn [andb]. f_equal; lia.
        -- rewrite !(proj2 (Nat.ltb_ge (off + k) (off + k))) by lia. cbn [orb].
           destruct (Nat.ltb_spec j (off + l)), (Nat.ltb_spec j (off + Datatypes.S l)); try reflexivity; lia.
      * reflexivity.
    + intros M2 H2. eapply is_mx_ext; [exact H2|]. intros i j Hi Hj. cbv beta.
      unfold in_block. destruct (Nat.ltb_spec i (off + k)), (Nat.eqb_spec i (off + k)), (Nat.ltb_spec i (off + Datatypes.S k)), (Nat.ltb_spec j (off + r)); try lia; cbn [andb orb]; rewrite ?andb_false_r, ?andb_true_r; reflexivity.
  - intros M1 H1. eapply is_mx_ext; [exact H1|]. intros i j Hi Hj. cbv beta.
    unfold in_block. destruct (Nat.leb_spec off i), (Nat.ltb_spec i (off + r)); cbn [andb]; rewrite ?andb_false_r, ?andb_true_r; reflexivity.
Qed.

Lemma lt_rank_total lt : lt_rank lt = total lt.
Proof.
  unfold lt_rank. assert (Q : forall a, fold_left (fun r s => r + snd s) lt a = a + total lt).
  { induction lt as [|s lt IH]; intros a; cbn [fold_left total]; [lia|]. rewrite IH. lia. }
  rewrite Q. lia.
Qed.
Lemma leqb_tT x : leqb x tT = true <-> x = tT.
Proof. destruct x; split; intros H; try reflexivity; discriminate. Qed.
Lemma lt_ss_rank_total lt : lt_ss_rank lt = total (derived lt).
Proof.
  unfold lt_ss_rank. assert (Q : forall a, fold_left (fun r s => r + simple_ss_rank s) lt a = a + total (derived lt)).
  { induction lt as [|s lt IH]; intros a; cbn [fold_left total derived filter]; [lia|]. rewrite IH. unfold simple_ss_rank.
    destruct (leqb (fst s) tT); cbn [negb total]; fold (derived lt); lia. }
  rewrite Q. lia.
Qed.
Lemma derived_valid lt : valid_type lt -> valid_type (derived lt).
Proof. intros V. unfold valid_type, derived in *. rewrite Forall_forall in *. intros s H. apply filter_In in H. apply V, H. Qed.
Lemma derived_small lt : small lt -> small (derived lt).
Proof. intros V. unfold small, derived in *. rewrite Forall_forall in *. intros s H. apply filter_In in H. apply V, H. Qed.
Lemma derived_semisimple lt : semisimple (derived lt).
Proof. unfold semisimple, derived. rewrite Forall_forall. intros s H. apply filter_In in H. destruct H as [_ H]. intros E. rewrite E in H. discriminate. Qed.

Lemma simple_Cartan_ok s : valid_rank (fst s) (snd s) -> (Z.of_nat (snd s) < 4294967296)%Z ->
  gives (simple_Cartan s) (fun M => is_mx M (snd s) (snd s) (simple_matrix s)) never.
Proof.
  intros V B. unfold simple_Cartan. eapply gives_mono; [apply (fill_block_ok 0 (snd s) _ _ (snd s) _ (le_n _) (fill_ok _ _ _))|].
  intros M H. eapply is_mx_ext; [exact H|]. intros i j Hi Hj. cbv beta. unfold in_block. cbn [Nat.leb Nat.add andb].
  rewrite !(proj2 (Nat.ltb_lt _ _)) by assumption. cbn [andb]. rewrite !Nat.sub_0_r. apply simple_entry_ok; assumption.
Qed.
Lemma simple_transpose_Cartan_ok s : valid_rank (fst s) (snd s) -> (Z.of_nat (snd s) < 4294967296)%Z ->
  gives (simple_transpose_Cartan s) (fun M => is_mx M (snd s) (snd s) (fun i j => simple_matrix s j i)) never.
Proof.
  intros V B. unfold simple_transpose_Cartan. eapply gives_mono; [apply (fill_block_ok 0 (snd s) _ _ (snd s) _ (le_n _) (fill_ok _ _ _))|].
  intros M H. eapply is_mx_ext; [exact H|]. intros i j Hi Hj. cbv beta. unfold in_block. cbn [Nat.leb Nat.add andb].
  rewrite !(proj2 (Nat.ltb_lt _ _)) by assumption. cbn [andb]. rewrite !Nat.sub_0_r. apply simple_entry_ok; assumption.
Qed.
Lemma lt_transpose_Cartan_ok lt : valid_type lt -> small lt ->
  gives (lt_transpose_Cartan lt) (fun M => is_mx M (total lt) (total lt) (fun i j => block_diagonal lt j i)) never.
Proof.
  intros V B. unfold lt_transpose_Cartan. rewrite !lt_rank_total. eapply gives_mono; [apply (fill_block_ok 0 (total lt) _ _ (total lt) _ (le_n _) (fill_ok _ _ _))|].
  intros M H. eapply is_mx_ext; [exact H|]. intros i j Hi Hj. cbv beta. unfold in_block. cbn [Nat.leb Nat.add andb].
  rewrite !(proj2 (Nat.ltb_lt _ _)) by assumption. cbn [andb]. rewrite !Nat.sub_0_r. apply lt_entry_ok; assumption.
Qed.
Lemma true_Cartan_from_ok lt n : valid_type lt -> small lt -> forall off M f, off + total (derived lt) = n -> is_mx M n n f ->
  (forall i j, i < n -> j < n -> off <= i \/ off <= j -> f i j = 0%Z) ->
  gives (true_Cartan_from lt off M)
    (fun M1 => is_mx M1 n n (fun i j => if (i <? off) || (j <? off) then f i j else block_diagonal (derived lt) (i - off) (j - off))) never.
Proof.
  induction lt as [|s lt IH]; intros V SM off M f E H Z0.
  - cbn [true_Cartan_from]. apply gives_ok. eapply is_mx_ext; [exact H|]. intros i j Hi Hj. cbv beta. cbn in E. rewrite Nat.add_0_r in E. subst off.
    rewrite (proj2 (Nat.ltb_lt i n)) by assumption. reflexivity.
  - inversion V as [|? ? V1 V2]. inversion SM as [|? ? S1 S2]. subst.
    unfold derived in *. cbn [true_Cartan_from filter total] in *. fold (derived lt) in *. destruct (leqb (fst s) tT) eqn:ET; cbn [negb] in *.
    + apply IH; first [assumption|reflexivity].
    + cbn [total] in *.
      apply gives_bind with (P := fun M1 => is_mx M1 (off + (snd s + total (derived lt))) (off + (snd s + total (derived lt)))
         (fun i j => if in_block off (snd s) i j then simple_entry s (i - off) (j - off) else f i j)).
      * apply fill_block_ok; [lia|exact H].
      * intros M1 H1. eapply gives_mono; [apply (IH V2 S2 (off + snd s) M1 _ ltac:(lia) H1)|].
        -- intros i j Hi Hj [G|G]; unfold in_block; cbv beta.
           ++ rewrite (proj2 (Nat.ltb_ge i (off + snd s))) by lia. rewrite andb_false_r. cbn [andb]. apply Z0; [assumption|assumption|left; lia].
           ++ rewrite (proj2 (Nat.ltb_ge j (off + snd s))) by lia. rewrite andb_false_r. apply Z0; [assumption|assumption|right; lia].
        -- intros M2 H2. eapply is_mx_ext; [exact H2|]. intros i j Hi Hj. cbv beta. cbn [block_diagonal]. unfold in_block.
           destruct (Nat.ltb_spec i off), (Nat.ltb_spec j off); cbn [orb].
           ++ rewrite (proj2 (Nat.ltb_lt i (off + snd s))), (proj2 (Nat.leb_gt off i)) by lia. reflexivity.
           ++ rewrite (proj2 (Nat.ltb_lt i (off + snd s))), (proj2 (Nat.leb_gt off i)) by lia. reflexivity.
           ++ rewrite (proj2 (Nat.ltb_lt j (off + snd s))), (proj2 (Nat.leb_gt off j)) by lia. rewrite orb_true_r, andb_false_r. reflexivity.
           ++ rewrite (proj2 (Nat.leb_le off i)), (proj2 (Nat.leb_le off j)) by lia. cbn [andb]. rewrite andb_true_r.
              destruct (Nat.ltb_spec i (off + snd s)), (Nat.ltb_spec j (off + snd s)), (Nat.ltb_spec (i - off) (snd s)), (Nat.ltb_spec (j - off) (snd s)); try lia; cbn [andb orb].
              ** apply simple_entry_ok; assumption.
              ** apply Z0; [assumption|assumption|left; lia].
              ** apply Z0; [assumption|assumption|left; lia].
              ** f_equal; lia.
Qed.
Lemma true_Cartan_ok lt : valid_type lt -> small lt ->
  gives (true_Cartan lt) (fun M => is_mx M (total (derived lt)) (total (derived lt)) (block_diagonal (derived lt))) never.
Proof.
  intros V SM. unfold true_Cartan. rewrite lt_ss_rank_total.
  eapply gives_mono; [apply (true_Cartan_from_ok lt (total (derived lt)) V SM 0 _ _ eq_refl (fill_ok _ _ _))|].
  - reflexivity.
  - intros M H. eapply is_mx_ext; [exact H|]. intros i j Hi Hj. cbv beta. cbn [Nat.ltb Nat.leb orb]. rewrite !Nat.sub_0_r. reflexivity.
Qed.

(** ** Dual types *)
Lemma std_dual X n i j : valid_rank X n -> std (dual_letter X) n i j = std X n j i.
Proof.
  intros V. unfold std. rewrite (Nat.eqb_sym i j). destruct (Nat.eqb_spec j i) as [->|N]; [reflexivity|].
  assert (L : line i j = line j i) by (unfold line; apply orb_comm).
  assert (P : forall a b, is_pair a b i j = is_pair b a j i) by (intros; unfold is_pair; apply andb_comm).
  assert (Ed : forall a b, is_edge a b i j = is_edge a b j i) by (intros; unfold is_edge; rewrite !P; apply orb_comm).
  destruct X; cbn [dual_letter]; rewrite ?L; try reflexivity; rewrite ?P, ?Ed; try reflexivity.
  f_equal. cbn [existsb fst snd]. rewrite !Ed. reflexivity.
Qed.
Lemma block_dual lt : valid_type lt -> forall i j, block_diagonal (dual_type lt) i j = block_diagonal lt j i.
Proof.
  induction lt as [|[X r] lt IH]; intros V i j; [reflexivity|]. inversion V as [|? ? V1 V2]. subst. specialize (IH V2).
  cbn [dual_type map block_diagonal fst snd]. fold (dual_type lt). rewrite IH.
  rewrite (andb_comm (i <? r)), (orb_comm (i <? r)). destruct ((j <? r) && (i <? r)); [|reflexivity].
  unfold simple_matrix. cbn [fst snd] in *. pose proof (std_dual X r i j V1) as E. destruct X; try exact E; reflexivity.
Qed.
Lemma dual_valid lt : valid_type lt -> valid_type (dual_type lt) /\ total (dual_type lt) = total lt.
Proof.
  induction lt as [|[X r] lt IH]; intros V; [split; [exact V|reflexivity]|]. inversion V as [|? ? V1 V2]. subst. destruct (IH V2) as [A B].
  split; [|cbn [dual_type map total fst snd]; fold (dual_type lt); rewrite B; reflexivity].
  constructor; [|exact A]. cbn [fst snd] in *. destruct X; exact V1.
Qed.
Lemma dual_dual lt : dual_type (dual_type lt) = lt.
Proof. induction lt as [|[X r] lt IH]; [reflexivity|]. cbn [dual_type map fst snd]. fold (dual_type lt). fold (dual_type (dual_type lt)). rewrite IH. destruct X; reflexivity. Qed.
