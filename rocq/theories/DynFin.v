(** Decompositions into blocks of simple type, and the components. *)

From Coq Require Import List Arith ZArith Bool Lia Permutation.
From Verif Require Import VecModel VecProofs RunModel RunProofs MatModel MatSpec MatProofs BitsetModel BitsetSpec
  LieTypeModel LieTypeSpec DynkinModel DynBits DynGraph DynTrav DynRead DynComps DynClass DynShape.
Import ListNotations.
Local Open Scope nat_scope.

(** ** The matrices of the simple types *)
Lemma std_diag X r i : std X r i i = 2%Z.
Proof. unfold std. rewrite Nat.eqb_refl. reflexivity. Qed.
Lemma bond_range b : (-1 <= bond b <= 0)%Z.
Proof. destruct b; cbn; lia. Qed.
Lemma std_range X r i j : i <> j -> (-3 <= std X r i j <= 0)%Z.
Proof.
  intros N. unfold std. rewrite (proj2 (Nat.eqb_neq i j)) by exact N. pose proof bond_range as B.
  destruct X; repeat match goal with |- context [if ?b then _ else _] => destruct b end; try (cbn; lia);
    match goal with |- (_ <= bond ?b <= _)%Z => specialize (B b); lia end.
Qed.
Lemma line_sym i j : line i j = line j i.
Proof. unfold line. apply orb_comm. Qed.
Lemma is_edge_sym a b i j : is_edge a b i j = is_edge a b j i.
Proof. unfold is_edge, is_pair. destruct (i =? a), (j =? b), (i =? b), (j =? a); reflexivity. Qed.
Lemma std_zero X r i j : X <> tT -> valid_rank X r -> i < r -> j < r -> std X r i j = 0%Z -> std X r j i = 0%Z.
Proof.
  intros NT V Hi Hj. destruct (Nat.eq_dec i j) as [->|N]; [auto|].
  destruct (kinds X NT) as [L|[->| ->]].
  - intros E. destruct (Z.eq_dec (std X r j i) 0) as [|N2]; [assumption|]. exfalso.
    apply (std_line X r j i L V Hj Hi ltac:(auto)) in N2. rewrite line_sym in N2. apply (std_line X r i j L V Hi Hj N) in N2. contradiction.
  - intros E. rewrite <- E. unfold std. rewrite (Nat.eqb_sym j i), (is_edge_sym _ _ j i), (is_edge_sym _ _ j i), line_sym. reflexivity.
  - intros E. rewrite <- E. unfold std. rewrite (Nat.eqb_sym j i). cbn [existsb fst snd]. rewrite !(is_edge_sym _ _ j i). reflexivity.
Qed.
(** the diagram is connected *)
Lemma std_connected X r (T : nat -> Prop) : X <> tT -> valid_rank X r ->
  (forall a b, a < r -> b < r -> a <> b -> std X r a b <> 0%Z -> T a -> T b) ->
  forall a b, a < r -> b < r -> T a -> T b.
Proof.
  intros NT V St.
  assert (St2 : forall a b, a < r -> b < r -> a <> b -> std X r a b <> 0%Z -> T a <-> T b).
  { intros a b Ha Hb N Z0. split; [apply St; assumption|]. apply St; auto. intros E. apply Z0. apply (std_zero X r b a); assumption. }
  assert (G : forall a, a < r -> T a <-> T 0).
  { destruct (kinds X NT) as [L|[->| ->]].
    - induction a as [|a IH]; intros Ha; [reflexivity|]. rewrite <- IH by lia. apply St2; try lia.
      apply (std_line X r (S a) a L V); try lia. apply line_iff. lia.
    - cbn in V.
      assert (Z0 : forall a b, a < r -> b < r -> (S b = a /\ a <> r - 1) \/ (a = r - 1 /\ b = r - 3) -> T a <-> T b).
      { intros a b Ha Hb H. apply St2; try lia. rewrite std_D by lia. apply bond_nz.
        destruct (Nat.eqb_spec a (r - 1)); [apply Nat.eqb_eq; lia|]. destruct (Nat.eqb_spec b (r - 1)); [apply Nat.eqb_eq; lia|]. apply line_iff. lia. }
      assert (G : forall a, a < r - 1 -> T a <-> T 0).
      { induction a as [|a IH]; intros Ha; [reflexivity|]. rewrite <- IH by lia. apply Z0; lia. }
      intros a Ha. destruct (Nat.eq_dec a (r - 1)) as [E|E]; [|apply G; lia]. rewrite <- (G (r - 3)) by lia. apply Z0; lia.
    - cbn in V.
      assert (Z0 : forall a b, a < r -> b < r -> a <> b -> pat_E a b = true -> T a <-> T b).
      { intros a b Ha Hb N H. apply St2; try lia. rewrite std_E by lia. apply bond_nz. exact H. }
      assert (G2 : T 2 <-> T 0) by (apply Z0; try lia; reflexivity).
      assert (G : forall a, S (S a) < r -> T (S (S a)) <-> T 0).
      { induction a as [|a IH]; intros Ha; [exact G2|]. rewrite <- IH by lia. apply Z0; try lia. cbn [pat_E]. apply line_iff. lia. }
      intros [|[|a]] Ha; [reflexivity| |apply G; lia]. rewrite <- (G 1) by lia. apply Z0; try lia. reflexivity. }
  intros a b Ha Hb Ta. apply G; [exact Hb|]. apply (G a Ha). exact Ta.
Qed.

(** ** Decompositions *)
Definition bk := (letter * list nat)%type.
Definition bk_ok (f : nat -> nat -> Z) (b : bk) : Prop :=
  fst b <> tT /\ valid_rank (fst b) (length (snd b)) /\
  forall i j, i < length (snd b) -> j < length (snd b) -> f (nth i (snd b) 0) (nth j (snd b) 0) = std (fst b) (length (snd b)) i j.
Definition apart (f : nat -> nat -> Z) (l m : list nat) : Prop := forall x y, In x l -> In y m -> f x y = 0%Z /\ f y x = 0%Z.
Definition bnodes (L : list bk) : list nat := flat_map snd L.
Fixpoint dec (f : nat -> nat -> Z) (L : list bk) : Prop :=
  match L with
  | [] => True
  | b :: rest => bk_ok f b /\ apart f (snd b) (bnodes rest) /\ dec f rest
  end.
Definition type_of (L : list bk) : lietype := map (fun b => (fst b, length (snd b))) L.

Lemma dec_type f L : dec f L -> valid_type (type_of L) /\ semisimple (type_of L) /\ total (type_of L) = length (bnodes L).
Proof.
  induction L as [|b L IH]; intros H; [repeat constructor|]. destruct H as ((NT & V & _) & _ & H). destruct (IH H) as (I1 & I2 & I3).
  split; [constructor; assumption|]. split; [constructor; assumption|]. cbn. rewrite app_length. unfold type_of in I3. rewrite I3. reflexivity.
Qed.
Lemma dec_entries f L : dec f L -> forall i j, i < length (bnodes L) -> j < length (bnodes L) ->
  f (nth i (bnodes L) 0) (nth j (bnodes L) 0) = block_diagonal (type_of L) i j.
Proof.
  induction L as [|[X q] L IH]; intros H i j Hi Hj; [cbn in Hi; lia|]. destruct H as ((NT & V & E) & A & H). cbn [fst snd] in *.
  specialize (IH H). unfold bnodes in *. cbn [flat_map snd type_of map block_diagonal fst] in *. rewrite app_length in Hi, Hj.
  destruct (Nat.ltb_spec i (length q)) as [Li|Li], (Nat.ltb_spec j (length q)) as [Lj|Lj]; cbn [andb orb].
  - rewrite !app_nth1 by assumption. rewrite E by assumption. unfold simple_matrix. cbn [fst snd]. destruct X; try reflexivity. congruence.
  - rewrite app_nth1 by assumption. rewrite app_nth2 by assumption. refine (proj1 (A _ _ _ _)); apply nth_In; lia.
  - rewrite app_nth2 by assumption. rewrite app_nth1 by assumption. refine (proj2 (A _ _ _ _)); apply nth_In; lia.
  - rewrite !app_nth2 by assumption. apply IH; lia.
Qed.
Theorem dec_straightens n f L : dec f L -> Permutation (bnodes L) (seq 0 n) ->
  valid_type (type_of L) /\ semisimple (type_of L) /\ straightens n f (type_of L) (bnodes L).
Proof.
  intros H P. destruct (dec_type f L H) as (I1 & I2 & I3). split; [exact I1|]. split; [exact I2|].
  assert (Len : length (bnodes L) = n) by (rewrite (Permutation_length P); apply seq_length).
  split; [congruence|]. split; [exact P|]. intros i j Hi Hj. apply dec_entries; [exact H|lia|lia].
Qed.
(** the blocks of a straightened matrix *)
Fixpoint blocks (lt : lietype) (pi : list nat) : list bk :=
  match lt with
  | [] => []
  | s :: rest => (fst s, firstn (snd s) pi) :: blocks rest (skipn (snd s) pi)
  end.
Lemma blocks_ok f lt : forall pi, valid_type lt -> semisimple lt -> length pi = total lt ->
  (forall i j, i < length pi -> j < length pi -> f (nth i pi 0) (nth j pi 0) = block_diagonal lt i j) ->
  dec f (blocks lt pi) /\ type_of (blocks lt pi) = lt /\ bnodes (blocks lt pi) = pi.
Proof.
  induction lt as [|[X r] lt IH]; intros pi V SS Len E; cbn [total snd] in Len.
  - destruct pi; [|cbn in Len; lia]. repeat split.
  - inversion V as [|? ? V1 V2]. inversion SS as [|? ? S1 S2]. subst. cbn [fst snd] in *. cbn [blocks fst snd].
    assert (LF : length (firstn r pi) = r) by (rewrite firstn_length; lia). assert (LS : length (skipn r pi) = total lt) by (rewrite skipn_length; lia).
    assert (NF : forall i, i < r -> nth i (firstn r pi) 0 = nth i pi 0).
    { intros i Hi. rewrite <- (firstn_skipn r pi) at 2. rewrite app_nth1 by lia. reflexivity. }
    assert (NS : forall i, nth i (skipn r pi) 0 = nth (r + i) pi 0).
    { intros i. rewrite <- (firstn_skipn r pi) at 2. rewrite app_nth2 by lia. f_equal. lia. }
    destruct (IH (skipn r pi) V2 S2 LS) as (I1 & I2 & I3).
    { intros i j Hi Hj. rewrite !NS. rewrite E by lia. cbn [block_diagonal fst snd].
      rewrite (proj2 (Nat.ltb_ge (r + i) r)), (proj2 (Nat.ltb_ge (r + j) r)) by lia. cbn [andb orb]. f_equal; lia. }
    cbn [dec fst snd]. unfold bnodes in *. cbn [type_of map flat_map fst snd]. rewrite LF, I3, firstn_skipn. unfold type_of in I2. rewrite I2. split; [|split; reflexivity].
    split; [|split; [|exact I1]].
    + split; [exact S1|]. cbn [fst snd]. rewrite LF. split; [exact V1|]. intros i j Hi Hj. rewrite !NF by assumption. rewrite E by lia.
      cbn [block_diagonal fst snd]. rewrite (proj2 (Nat.ltb_lt i r)), (proj2 (Nat.ltb_lt j r)) by lia. cbn [andb]. unfold simple_matrix. cbn [fst snd].
      destruct X; try reflexivity. congruence.
    + intros x y Ix Iy. destruct (In_nth _ _ 0 Ix) as (i & Hi & <-). destruct (In_nth _ _ 0 Iy) as (j & Hj & <-).
      rewrite LF in Hi. rewrite LS in Hj. rewrite NF by assumption. rewrite NS. rewrite !E by lia. cbn [block_diagonal fst snd].
      rewrite (proj2 (Nat.ltb_lt i r)) by lia. rewrite (proj2 (Nat.ltb_ge (r + j) r)) by lia. split; reflexivity.
Qed.
Theorem straightens_dec n f lt pi : valid_type lt -> semisimple lt -> straightens n f lt pi ->
  dec f (blocks lt pi) /\ type_of (blocks lt pi) = lt /\ bnodes (blocks lt pi) = pi.
Proof.
  intros V S (T & P & E). assert (Len : length pi = n) by (rewrite (Permutation_length P); apply seq_length).
  apply blocks_ok; auto; [congruence|]. rewrite Len. exact E.
Qed.

(** [apart] between any two different blocks, and inside one block the standard matrix *)
Lemma dec_in f L b : dec f L -> In b L -> bk_ok f b.
Proof. induction L as [|c L IH]; intros H I; [destruct I|]. destruct H as (H1 & _ & H2). destruct I as [<-|I]; auto. Qed.
Lemma dec_split f L1 b L2 : dec f (L1 ++ b :: L2) -> dec f (L1 ++ L2) /\ bk_ok f b /\ apart f (snd b) (bnodes (L1 ++ L2)).
Proof.
  induction L1 as [|c L1 IH]; intros H; cbn [app] in *.
  - destruct H as (H1 & H2 & H3). auto.
  - destruct H as (H1 & H2 & H3). destruct (IH H3) as (I1 & I2 & I3). split; [|split; [exact I2|]].
    + split; [exact H1|]. split; [|exact I1]. intros x y Ix Iy. apply H2; [exact Ix|]. unfold bnodes in *. rewrite flat_map_app in *.
      apply in_app_iff. apply in_app_iff in Iy as [Iy|Iy]; [left; exact Iy|right]. cbn. apply in_app_iff. right. exact Iy.
    + intros x y Ix Iy. unfold bnodes in *. cbn [flat_map] in Iy. apply in_app_iff in Iy as [Iy|Iy]; [|apply I3; assumption].
      destruct (H2 y x Iy) as [Q1 Q2]; [|split; assumption]. rewrite flat_map_app. apply in_app_iff. right. cbn. apply in_app_iff. left. exact Ix.
Qed.
Lemma dec_closed f L b : dec f L -> In b L -> forall x y, In x (snd b) -> In y (bnodes L) -> f x y <> 0%Z -> In y (snd b).
Proof.
  intros H I x y Ix Iy Z0. apply in_split in I as (L1 & L2 & ->). destruct (dec_split f L1 b L2 H) as (_ & _ & A).
  unfold bnodes in *. rewrite flat_map_app in *. cbn [flat_map] in Iy. rewrite !in_app_iff in Iy.
  destruct (in_dec Nat.eq_dec y (snd b)) as [|N]; [assumption|]. exfalso. apply Z0. apply (A x y Ix). apply in_app_iff. tauto.
Qed.
Lemma dec_readable n f L : dec f L -> Permutation (bnodes L) (seq 0 n) -> readable n f.
Proof.
  intros H P.
  assert (Hn : forall i, i < n -> exists b, In b L /\ In i (snd b)).
  { intros i Hi. assert (I : In i (bnodes L)) by (rewrite P; apply in_seq; lia). apply in_flat_map in I. exact I. }
  assert (All : forall i, i < n -> In i (bnodes L)) by (intros i Hi; rewrite P; apply in_seq; lia).
  assert (Cs : forall i j, i < n -> j < n -> i <> j -> (f i j = 0 /\ f j i = 0)%Z \/ exists X r a b, X <> tT /\ valid_rank X r /\ a < r /\ b < r /\ a <> b /\ f i j = std X r a b /\ f j i = std X r b a).
  { intros i j Hi Hj N. destruct (Hn i Hi) as (b & Ib & Ii).
    destruct (in_dec Nat.eq_dec j (snd b)) as [Ij|Ij].
    - right. destruct (dec_in f L b H Ib) as (NT & V & E). destruct (In_nth _ _ 0 Ii) as (x & Hx & <-). destruct (In_nth _ _ 0 Ij) as (y & Hy & <-).
      exists (fst b), (length (snd b)), x, y. rewrite !E by assumption. repeat split; auto. intros ->. auto.
    - left. apply in_split in Ib as (L1 & L2 & EL). rewrite EL in H. destruct (dec_split f L1 b L2 H) as (_ & _ & A). apply (A i j Ii).
      specialize (All j Hj). rewrite EL in All. unfold bnodes in *. rewrite flat_map_app in *. cbn [flat_map] in All. rewrite !in_app_iff in All. rewrite in_app_iff. tauto. }
  split; [split; [|split]|].
  - intros i Hi. destruct (Hn i Hi) as (b & Ib & Ii). destruct (dec_in f L b H Ib) as (_ & _ & E). destruct (In_nth _ _ 0 Ii) as (x & Hx & <-).
    rewrite E by assumption. apply std_diag.
  - intros i j Hi Hj N. destruct (Cs i j Hi Hj N) as [[-> _]|(X & r & a & b & NT & V & Ha & Hb & Nab & -> & _)]; [lia|]. apply std_range. exact Nab.
  - intros i j Hi Hj E. destruct (Nat.eq_dec i j) as [->|N]; [exact E|].
    destruct (Cs i j Hi Hj N) as [[_ E2]|(X & r & a & b & NT & V & Ha & Hb & Nab & E1 & ->)]; [exact E2|]. apply std_zero; auto. congruence.
  - intros i j Hi Hj N. destruct (Cs i j Hi Hj N) as [[-> _]|(X & r & a & b & NT & V & Ha & Hb & Nab & -> & _)]; [lia|]. apply std_range. exact Nab.
Qed.

(** ** Components are blocks *)
Lemma comp_block n f L Sp : dec f L -> Permutation (bnodes L) (seq 0 n) -> is32 Sp ->
  (forall u, mem Sp u = true -> u < n) -> connected (adjf n f) (mem Sp) ->
  (forall i j, mem Sp i = true -> adjf n f i j = true -> mem Sp j = true) ->
  forall u, mem Sp u = true -> exists b, In b L /\ In u (snd b) /\ shape f Sp (fst b) (snd b) /\ fst b <> tT.
Proof.
  intros H P W Sn C Cl u Mu.
  assert (All : forall i, i < n -> In i (bnodes L)) by (intros i Hi; rewrite P; apply in_seq; lia).
  assert (ND : NoDup (bnodes L)) by (apply (Permutation_NoDup (l := seq 0 n)); [symmetry; exact P|apply seq_NoDup]).
  pose proof (All u (Sn u Mu)) as I. apply in_flat_map in I as (b & Ib & Iu).
  destruct (dec_in f L b H Ib) as (NT & V & E). exists b. split; [exact Ib|]. split; [exact Iu|]. split; [|exact NT].
  split; [exact V|]. split; [|exact E].
  assert (Hb : forall x, In x (snd b) -> x < n).
  { intros x Ix. assert (I : In x (bnodes L)) by (apply in_flat_map; exists b; auto). rewrite P in I. apply in_seq in I. lia. }
  assert (NDb : NoDup (snd b)).
  { apply in_split in Ib as (L1 & L2 & ->). unfold bnodes in ND. rewrite flat_map_app in ND. cbn [flat_map] in ND. revert ND. clear.
    intros ND. apply nodup_r in ND. apply nodup_l in ND. exact ND. }
  split; [exact NDb|]. intros x. split.
  - intros Ix. destruct (In_nth _ _ 0 Iu) as (a & Ha & Ea). destruct (In_nth _ _ 0 Ix) as (c & Hc & Ec).
    rewrite <- Ec. apply (std_connected (fst b) (length (snd b)) (fun i => mem Sp (nth i (snd b) 0) = true) NT V) with (a := a); auto.
    + intros i j Hi Hj N Z0 Mi. apply (Cl (nth i (snd b) 0)); [exact Mi|]. apply adjf_intro.
      * apply Hb, nth_In. exact Hi.
      * apply Hb, nth_In. exact Hj.
      * intros Eij. apply N. apply (proj1 (NoDup_nth (snd b) 0) NDb); assumption.
      * rewrite E by assumption. exact Z0.
    + rewrite Ea. exact Mu.
  - intros Mx. apply (connected_closed (adjf n f) (mem Sp) (fun y => In y (snd b)) u C Mu Iu); [|exact Mx].
    intros y z My Mz A Iy. apply adjf_lt in A as (_ & Hz & _ & Z0). apply (dec_closed f L b H Ib y z Iy (All z Hz) Z0).
Qed.
