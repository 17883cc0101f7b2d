(** Reading a Cartan matrix into a Dynkin diagram. *)

From Coq Require Import List Arith ZArith Bool Lia Permutation.
From Verif Require Import VecModel VecProofs RunModel RunProofs MatModel MatSpec MatProofs BitsetModel BitsetSpec
  LieTypeModel LieTypeSpec DynkinModel DynBits DynGraph DynTrav.
Import ListNotations.
Local Open Scope nat_scope.

(** the relation of being joined by an edge *)
Definition adjf (n : nat) (f : nat -> nat -> Z) (i j : nat) : bool :=
  (i <? n) && (j <? n) && negb (i =? j) && negb (f i j =? 0)%Z.
(** what the constructor accepts *)
Definition readable (n : nat) (f : nat -> nat -> Z) : Prop :=
  Cartan_like n f /\ forall i j, i < n -> j < n -> i <> j -> (-3 <= f i j)%Z.
(** the list of labelled edges *)
Definition labels (n : nat) (f : nat -> nat -> Z) (down : list (nat * nat * Z)) : Prop :=
  NoDup down /\ forall a b l, In (a, b, l) down <->
    a < n /\ b < n /\ a <> b /\ (f a b < -1)%Z /\ l = (- f a b)%Z.

Lemma adjf_irr n f i : adjf n f i i = false.
Proof. unfold adjf. rewrite Nat.eqb_refl, andb_false_r. reflexivity. Qed.
Lemma adjf_sym n f i j : Cartan_like n f -> adjf n f i j = adjf n f j i.
Proof.
  intros (_ & _ & H). unfold adjf. destruct (Nat.ltb_spec i n), (Nat.ltb_spec j n); try reflexivity. cbn [andb].
  rewrite (Nat.eqb_sym j i). f_equal. f_equal. destruct (Z.eqb_spec (f i j) 0) as [E|E], (Z.eqb_spec (f j i) 0) as [F|F]; try reflexivity.
  - exfalso. apply F. apply H; auto.
  - exfalso. apply E. apply H; auto.
Qed.
Lemma adjf_lt n f i j : adjf n f i j = true -> i < n /\ j < n /\ i <> j /\ f i j <> 0%Z.
Proof.
  unfold adjf. rewrite !andb_true_iff, !negb_true_iff, Nat.eqb_neq, Z.eqb_neq, !Nat.ltb_lt. tauto.
Qed.
Lemma adjf_intro n f i j : i < n -> j < n -> i <> j -> f i j <> 0%Z -> adjf n f i j = true.
Proof. unfold adjf. rewrite !andb_true_iff, !negb_true_iff, Nat.eqb_neq, Z.eqb_neq, !Nat.ltb_lt. tauto. Qed.

Section Read.
Variable n : nat.
Variable f : nat -> nat -> Z.
Hypothesis N32 : n <= 32.

Definition passed (i j a b : nat) : bool := (a <? i) || ((a =? i) && (b <? j)).
Definition good (a b : nat) : Prop :=
  (a = b -> f a b = 2%Z) /\ (a <> b -> (-3 <= f a b <= 0)%Z /\ (f a b <> 0%Z -> f b a <> 0%Z)).
Record rinv (i j : nat) (s : list Z * list (nat * nat * Z)) : Prop := {
  r_good : forall a b, a < n -> b < n -> passed i j a b = true -> good a b;
  r_len : length (fst s) = n;
  r_star : forall b, b < n -> is32 (nth b (fst s) 0%Z) /\
     forall a, mem (nth b (fst s) 0%Z) a = (a <? n) && passed i j a b && negb (a =? b) && negb (f a b =? 0)%Z;
  r_nodup : NoDup (snd s);
  r_down : forall a b l, In (a, b, l) (snd s) <->
     a < n /\ b < n /\ passed i j a b = true /\ a <> b /\ (f a b < -1)%Z /\ l = (- f a b)%Z }.

Lemma passed_S i j a b : passed i (S j) a b = passed i j a b || (a =? i) && (b =? j).
Proof.
  unfold passed. destruct (Nat.ltb_spec a i), (Nat.eqb_spec a i), (Nat.ltb_spec b (S j)), (Nat.ltb_spec b j), (Nat.eqb_spec b j); cbn; try reflexivity; lia.
Qed.
Lemma passed_here i j : passed i j i j = false.
Proof. unfold passed. rewrite !Nat.ltb_irrefl, andb_false_r. reflexivity. Qed.
Lemma passed_row i a b : b < n -> passed (S i) 0 a b = passed i n a b.
Proof.
  intros H. unfold passed. destruct (Nat.ltb_spec a i), (Nat.eqb_spec a i), (Nat.ltb_spec a (S i)), (Nat.ltb_spec b n), (Nat.eqb_spec a (S i)); cbn; try reflexivity; lia.
Qed.

Lemma rinv_next i j s s' : i < n -> j < n -> rinv i j s -> good i j ->
  length (fst s') = n ->
  (forall b, b < n -> b <> j -> nth b (fst s') 0%Z = nth b (fst s) 0%Z) ->
  is32 (nth j (fst s') 0%Z) ->
  (forall a, mem (nth j (fst s') 0%Z) a = mem (nth j (fst s) 0%Z) a || (a =? i) && negb (i =? j) && negb (f i j =? 0)%Z) ->
  snd s' = (if negb (i =? j) && (f i j <? -1)%Z then snd s ++ [(i, j, (- f i j)%Z)] else snd s) ->
  rinv i (S j) s'.
Proof.
  intros Hi Hj I G L Oth W Mj D. constructor.
  - intros a b Ha Hb P. rewrite passed_S in P. apply orb_true_iff in P as [P|P]; [apply (r_good _ _ _ I); auto|].
    apply andb_true_iff in P as [Pa Pb]. apply Nat.eqb_eq in Pa, Pb. subst. exact G.
  - exact L.
  - intros b Hb. destruct (r_star _ _ _ I b Hb) as [W0 M0]. destruct (Nat.eq_dec b j) as [->|Nb].
    + split; [exact W|]. intros a. rewrite Mj, M0, passed_S, Nat.eqb_refl, andb_true_r.
      destruct (Nat.eqb_spec a i) as [->|Na].
      * rewrite passed_here. rewrite !andb_false_r. cbn [andb orb]. rewrite (proj2 (Nat.ltb_lt _ _)) by auto. reflexivity.
      * cbn [andb]. rewrite !orb_false_r. reflexivity.
    + rewrite Oth by auto. split; [exact W0|]. intros a. rewrite M0, passed_S. destruct (Nat.eqb_spec b j); [contradiction|].
      rewrite andb_false_r, orb_false_r. reflexivity.
  - rewrite D. destruct (negb (i =? j) && (f i j <? -1)%Z); [|apply (r_nodup _ _ _ I)].
    apply (Permutation_NoDup (l := (i, j, (- f i j)%Z) :: snd s)); [apply Permutation_cons_append|].
    constructor; [|apply (r_nodup _ _ _ I)]. intros In0. apply (r_down _ _ _ I) in In0 as (_ & _ & P & _). rewrite passed_here in P. discriminate.
  - intros a b l. rewrite D, passed_S.
    assert (X : In (a, b, l) (if negb (i =? j) && (f i j <? -1)%Z then snd s ++ [(i, j, (- f i j)%Z)] else snd s) <->
      In (a, b, l) (snd s) \/ (a = i /\ b = j /\ l = (- f i j)%Z /\ i <> j /\ (f i j < -1)%Z)).
    { destruct (negb (i =? j) && (f i j <? -1)%Z) eqn:C.
      - apply andb_true_iff in C as [C1 C2]. apply negb_true_iff, Nat.eqb_neq in C1. apply Z.ltb_lt in C2.
        rewrite in_app_iff. cbn [In]. split; [intros [H|[H|[]]]; [auto|]|intros [H|(-> & -> & -> & _)]; auto].
        right. injection H as <- <- <-. auto.
      - split; [auto|]. intros [H|(-> & -> & -> & H1 & H2)]; [exact H|]. exfalso.
        apply andb_false_iff in C as [C|C]; [apply negb_false_iff, Nat.eqb_eq in C; auto|apply Z.ltb_ge in C; lia]. }
    rewrite X, (r_down _ _ _ I), orb_true_iff, andb_true_iff, !Nat.eqb_eq. split.
    + intros [(Ha & Hb & P & R)|(-> & -> & -> & R1 & R2)]; [|auto 10]. tauto.
    + intros (Ha & Hb & [P|[-> ->]] & R1 & R2 & R3); [left; tauto|right; tauto].
Qed.

Lemma read_entry_ok c i j s : is_mx c n n f -> i < n -> j < n -> rinv i j s ->
  gives (read_entry c i j s) (rinv i (S j)) (fun e => e = Thrown /\ ~ good i j).
Proof.
  intros Mx Hi Hj I. unfold read_entry. eapply bind_mget; [exact Mx|exact Hi|exact Hj|].
  destruct (Nat.eqb_spec i j) as [->|Nij]; cbn [negb].
  - destruct (Z.eqb_spec (f j j) 2) as [E2|E2]; cbn [negb].
    + apply gives_ok. apply (rinv_next j j s s); auto.
      * split; [auto|congruence].
      * apply (r_len _ _ _ I).
      * apply (r_star _ _ _ I); auto.
      * intros a. rewrite Nat.eqb_refl. cbn [negb]. rewrite andb_false_r, orb_false_r. reflexivity.
      * rewrite Nat.eqb_refl. reflexivity.
    + apply gives_fail. split; [reflexivity|]. intros [G _]. auto.
  - destruct (Z.ltb_spec (f i j) (-3)) as [L3|L3].
    { apply gives_fail. split; [reflexivity|]. intros [_ G]. specialize (G Nij). lia. }
    destruct (Z.ltb_spec 0 (f i j)) as [P|P].
    { apply gives_fail. split; [reflexivity|]. intros [_ G]. specialize (G Nij). lia. }
    destruct (Z.eqb_spec (f i j) 0) as [E0|E0]; cbn [negb].
    + apply gives_ok. apply (rinv_next i j s s); auto.
      * split; [congruence|]. intros _. split; [lia|congruence].
      * apply (r_len _ _ _ I).
      * apply (r_star _ _ _ I); auto.
      * intros a. rewrite E0. cbn. rewrite andb_false_r, orb_false_r. reflexivity.
      * rewrite E0. cbn. rewrite andb_false_r. reflexivity.
    + eapply bind_mget; [exact Mx|exact Hj|exact Hi|].
      destruct (Z.eqb_spec (f j i) 0) as [Eji|Eji].
      { apply gives_fail. split; [reflexivity|]. intros [_ G]. exact (proj2 (G Nij) E0 Eji). }
      destruct (r_star _ _ _ I j Hj) as [W M]. pose proof (r_len _ _ _ I) as Len.
      rewrite (vget_nth (fst s) j 0%Z) by lia. cbn [bind].
      destruct (nset_ok (nth j (fst s) 0%Z) i W ltac:(lia)) as (b & Eb & Wb & Mb). rewrite Eb. cbn [bind].
      eapply gives_bind; [apply (gives_vput _ _ _ (fun w => length w = length (fst s) /\ forall k, get w k = if k =? j then Some b else get (fst s) k)); [lia|auto]|].
      intros w [Lw Gw]. apply gives_ok.
      assert (NO : forall k, k < n -> k <> j -> nth k w 0%Z = nth k (fst s) 0%Z).
      { intros k Hk Nk. apply get_nth_eq. rewrite Gw. destruct (Nat.eqb_spec k j); [contradiction|]. apply get_nth. lia. }
      assert (NJ : nth j w 0%Z = b) by (apply get_nth_eq; rewrite Gw, Nat.eqb_refl; reflexivity).
      apply (rinv_next i j s); auto; cbn [fst snd].
      * split; [congruence|]. intros _. split; [lia|auto].
      * lia.
      * rewrite NJ. exact Wb.
      * intros a. rewrite NJ, Mb. destruct (Nat.eqb_spec i j); [contradiction|]. destruct (Z.eqb_spec (f i j) 0); [contradiction|].
        cbn [negb]. rewrite !andb_true_r, orb_comm. reflexivity.
      * destruct (Nat.eqb_spec i j); [contradiction|]. reflexivity.
Qed.

Lemma readable_good : readable n f <-> forall a b, a < n -> b < n -> good a b.
Proof.
  split.
  - intros ((D & O & S) & B) a b Ha Hb. split; [intros ->; auto|]. intros N. split; [split; auto|]. intros H1 H2. apply H1. apply S; auto.
  - intros G. split; [split; [|split]|].
    + intros i Hi. apply (G i i Hi Hi). reflexivity.
    + intros i j Hi Hj N. apply (G i j Hi Hj); auto.
    + intros i j Hi Hj E. destruct (Nat.eq_dec i j) as [->|N]; [exact E|].
      destruct (Z.eq_dec (f j i) 0) as [E'|E']; [exact E'|]. exfalso. apply (proj2 (proj2 (G j i Hj Hi) ltac:(auto))); auto.
    + intros i j Hi Hj N. apply (G i j Hi Hj); auto.
Qed.

Theorem read_matrix_ok c : is_mx c n n f ->
  gives (read_matrix c) (fun sd => readable n f /\ stars (fst sd) n (adjf n f) /\ labels n f (snd sd))
    (fun e => e = Thrown /\ ~ readable n f).
Proof.
  intros Mx. unfold read_matrix. rewrite (is_mx_rows _ _ _ _ Mx), (is_mx_cols _ _ _ _ Mx).
  apply (gives_upto0 (fun i s => rinv i 0 s)).
  - constructor; cbn [fst snd].
    + intros a b _ _ P. unfold passed in P. rewrite andb_false_r in P. discriminate.
    + apply repeat_length.
    + intros b Hb. rewrite nth_repeat. split; [apply is32_0|]. intros a. rewrite mem_0. unfold passed. cbn [Nat.ltb Nat.leb]. rewrite !andb_false_r. reflexivity.
    + constructor.
    + intros a b l. split; [intros []|]. intros (_ & _ & P & _). unfold passed in P. rewrite andb_false_r in P. discriminate.
  - intros i s Hi I. apply (gives_upto0 (fun j s => rinv i j s)); [exact I| |].
    + intros j s1 Hj I1. eapply gives_mono_err; [|apply read_entry_ok; auto]. intros e [-> G]. split; [reflexivity|].
      intros R. apply G. apply readable_good; auto.
    + intros s1 [I1 I2 I3 I4 I5]. constructor; auto.
      * intros a b Ha Hb P. apply I1; auto. rewrite <- passed_row; auto.
      * intros b Hb. destruct (I3 b Hb) as [W M]. split; [exact W|]. intros a. rewrite M, passed_row by auto. reflexivity.
      * intros a b l. rewrite I5. split; intros (Ha & Hb & P & R); (split; [exact Ha|split; [exact Hb|split; [|exact R]]]).
        -- rewrite passed_row; auto.
        -- rewrite <- passed_row; auto.
  - intros s [I1 I2 I3 I4 I5].
    assert (PA : forall a b, a < n -> passed n 0 a b = true) by (intros a b Ha; unfold passed; rewrite (proj2 (Nat.ltb_lt _ _)) by auto; reflexivity).
    assert (R : readable n f) by (apply readable_good; auto).
    split; [exact R|]. split; [split; [exact I2|split; [exact N32|split]]|split; [exact I4|]].
    + intros i Hi. destruct (I3 i Hi) as [W M]. split; [exact W|]. intros j. rewrite M.
      rewrite (adjf_sym n f i j (proj1 R)). unfold adjf. rewrite (proj2 (Nat.ltb_lt i n)) by auto. destruct (Nat.ltb_spec j n); [|reflexivity].
      rewrite PA by auto. reflexivity.
    + intros i j E. apply adjf_lt in E. tauto.
    + intros a b l. rewrite I5. split; [tauto|]. intros (Ha & Hb & H). split; [auto|]. split; [auto|]. split; [apply PA; auto|tauto].
Qed.
End Read.
