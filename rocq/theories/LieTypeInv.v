(** The distinguished involutions of inner classes. *)

From Coq Require Import List Arith ZArith Bool Lia Permutation.
From Verif Require Import VecModel VecProofs RunModel RunProofs MatModel MatSpec MatProofs LieTypeModel LieTypeSpec LieTypeProofs.
Import ListNotations.
Local Open Scope nat_scope.

Lemma vget_at {A} (v : list A) i x : i < length v -> vget v i = Ok (nth i v x).
Proof.
  revert i. induction v as [|y v IH]; intros [|i] H; cbn [length] in H; try lia; [reflexivity|].
  unfold vget in *. cbn [get nth]. apply IH. lia.
Qed.

Section Writing.
Variables (n : nat) (pi : list nat).
Hypothesis P : permutes n pi.
Lemma pi_length : length pi = n.
Proof. rewrite (Permutation_length P), seq_length. reflexivity. Qed.
Lemma pi_bound i : i < n -> nth i pi 0 < n.
Proof.
  intros Hi. assert (I1 : In (nth i pi 0) pi) by (apply nth_In; rewrite pi_length; lia). apply (Permutation_in _ P) in I1. apply in_seq in I1. lia.
Qed.
Lemma pi_inj i j : i < n -> j < n -> nth i pi 0 = nth j pi 0 -> i = j.
Proof.
  intros Hi Hj E. assert (ND : NoDup pi) by (apply (Permutation_NoDup (Permutation_sym P)), seq_NoDup).
  apply (proj1 (NoDup_nth pi 0) ND); rewrite ?pi_length; lia.
Qed.
Lemma vget_pi i : i < n -> vget pi i = Ok (nth i pi 0).
Proof. intros Hi. apply vget_at; rewrite pi_length. exact Hi. Qed.

(** the matrix in the numbering given by [pi] *)
Definition pmx (M : matrix Z) (k : nat -> nat -> Z) : Prop :=
  exists h, is_mx M n n h /\ forall a b, a < n -> b < n -> h (nth a pi 0) (nth b pi 0) = k a b.
Lemma pmx_ext M k k' : pmx M k -> (forall a b, a < n -> b < n -> k a b = k' a b) -> pmx M k'.
Proof. intros (h & H1 & H2) E. exists h. split; [exact H1|]. intros a b Ha Hb. rewrite H2, E by assumption. reflexivity. Qed.
Lemma pput_ok M k a b x : pmx M k -> a < n -> b < n -> gives (pput pi M a b x) (fun M1 => pmx M1 (upd k a b x)) never.
Proof.
  intros (h & H1 & H2) Ha Hb. unfold pput. rewrite !vget_pi by assumption. cbn [bind].
  apply (gives_mput M n n h _ _ _ _ H1); [apply pi_bound, Ha|apply pi_bound, Hb|]. intros M1 H3. eexists. split; [exact H3|].
  intros c d Hc Hd. unfold upd. destruct (Nat.eqb_spec (nth c pi 0) (nth a pi 0)) as [E|E].
  - apply pi_inj in E; [|exact Hc|exact Ha]. subst c. rewrite Nat.eqb_refl. cbn [andb].
    destruct (Nat.eqb_spec (nth d pi 0) (nth b pi 0)) as [F|F].
    + apply pi_inj in F; [|exact Hd|exact Hb]. subst d. rewrite Nat.eqb_refl. reflexivity.
    + destruct (Nat.eqb_spec d b) as [->|]; [congruence|]. apply H2; assumption.
  - destruct (Nat.eqb_spec c a) as [->|]; [congruence|]. cbn [andb]. apply H2; assumption.
Qed.
Lemma pput_loop m (u v : nat -> nat) x M k : pmx M k -> (forall i, i < m -> u i < n /\ v i < n) ->
  gives (upto m 0 (fun i M1 => pput pi M1 (u i) (v i) x) M)
    (fun M1 => pmx M1 (fun a b => if existsb (fun i => (a =? u i) && (b =? v i)) (seq 0 m) then x else k a b)) never.
Proof.
  intros H B. apply (gives_upto0 (fun l M1 => pmx M1 (fun a b => if existsb (fun i => (a =? u i) && (b =? v i)) (seq 0 l) then x else k a b))).
  - exact H.
  - intros l M1 Hl H1. eapply gives_mono; [apply (pput_ok M1 _ (u l) (v l) x H1); apply B; exact Hl|].
    intros M2 H2. eapply pmx_ext; [exact H2|]. intros a b Ha Hb. unfold upd. rewrite seq_S, existsb_app. cbn [existsb Nat.add]. rewrite orb_false_r.
    destruct ((a =? u l) && (b =? v l)); [rewrite orb_true_r; reflexivity|rewrite orb_false_r; reflexivity].
  - intros M1 H1. exact H1.
Qed.
Lemma ex_off a b r m (t : nat -> nat) : existsb (fun i => (a =? r + i) && (b =? t i)) (seq 0 m) = (r <=? a) && (a <? r + m) && (b =? t (a - r)).
Proof.
  apply eq_true_iff_eq. rewrite existsb_exists, !andb_true_iff, Nat.leb_le, Nat.ltb_lt, Nat.eqb_eq. split.
  - intros (i & I1 & I2). apply in_seq in I1. apply andb_true_iff in I2. rewrite !Nat.eqb_eq in I2. destruct I2 as [-> ->]. replace (r + i - r) with i by lia. lia.
  - intros ((A & B) & E). exists (a - r). split; [apply in_seq; lia|]. rewrite (proj2 (Nat.eqb_eq a (r + (a - r)))) by lia. apply Nat.eqb_eq. exact E.
Qed.

(** filling a block of columns *)
Definition block_at (off m : nat) (sg : nat -> nat * Z) (k : nat -> nat -> Z) (a b : nat) : Z :=
  if (off <=? b) && (b <? off + m) then (if a =? off + fst (sg (b - off)) then snd (sg (b - off)) else 0%Z) else k a b.
Definition blank (off : nat) (k : nat -> nat -> Z) : Prop := forall a b, a < n -> b < n -> off <= a \/ off <= b -> k a b = 0%Z.
Variables (off rs : nat).
Hypothesis L : off + rs <= n.

Ltac one_test :=
  match goal with
  | |- context [Nat.leb ?a ?b] =>
    first [rewrite (proj2 (Nat.leb_le a b)) by lia | rewrite (proj2 (Nat.leb_gt a b)) by lia | destruct (Nat.leb_spec a b)]
  | |- context [Nat.ltb ?a ?b] =>
    first [rewrite (proj2 (Nat.ltb_lt a b)) by lia | rewrite (proj2 (Nat.ltb_ge a b)) by lia | destruct (Nat.ltb_spec a b)]
  | |- context [Nat.eqb ?a ?b] =>
    first [rewrite (proj2 (Nat.eqb_eq a b)) by lia | rewrite (proj2 (Nat.eqb_neq a b)) by lia | destruct (Nat.eqb_spec a b)]
  end; cbn [andb orb fst snd]; rewrite ?andb_false_r, ?orb_true_r.
Ltac tests := repeat one_test.
Ltac clear_block B := try reflexivity; try (apply B; (assumption || lia)); try (symmetry; apply B; (assumption || lia)); try lia.

Lemma diag_ok x M k : pmx M k -> blank off k ->
  gives (upto rs 0 (fun i M1 => pput pi M1 (off + i) (off + i) x) M) (fun M1 => pmx M1 (block_at off rs (fun i => (i, x)) k)) never.
Proof.
  intros H B. eapply gives_mono; [apply (pput_loop rs (fun i => off + i) (fun i => off + i) x M k H); intros; lia|].
  intros M1 H1. eapply pmx_ext; [exact H1|]. intros a b Ha Hb. cbv beta. rewrite (ex_off a b off rs (fun i => off + i)). unfold block_at. cbn [fst snd].
  tests; clear_block B.
Qed.
Lemma add_compact_ok M k : pmx M k -> blank off k ->
  gives (add_compact M off rs pi) (fun M1 => pmx M1 (block_at off rs (fun i => (i, 1%Z)) k)) never.
Proof. apply diag_ok. Qed.
Lemma add_minus_ok M k : pmx M k -> blank off k ->
  gives (add_minus M off rs pi) (fun M1 => pmx M1 (block_at off rs (fun i => (i, (-1)%Z)) k)) never.
Proof. apply diag_ok. Qed.
Lemma add_D_ok M k : 2 <= rs -> pmx M k -> blank off k ->
  gives (add_D M off rs pi) (fun M1 => pmx M1 (block_at off rs (fun i => ((if i =? rs - 2 then rs - 1 else if i =? rs - 1 then rs - 2 else i), 1%Z)) k)) never.
Proof.
  intros R H B. unfold add_D. rewrite (proj2 (Nat.ltb_ge rs 2)) by lia.
  eapply gives_bind; [apply (pput_loop (rs - 2) (fun i => off + i) (fun i => off + i) 1%Z M k H); intros; lia|]. cbv beta. intros M1 H1.
  eapply gives_bind; [apply (pput_ok M1 _ _ _ _ H1); lia|]. intros M2 H2.
  eapply gives_mono; [apply (pput_ok M2 _ _ _ _ H2); lia|]. intros M3 H3.
  eapply pmx_ext; [exact H3|]. intros a b Ha Hb. unfold upd. rewrite (ex_off a b off (rs - 2) (fun i => off + i)). unfold block_at. cbn [fst snd].
  destruct ((off <=? b) && (b <? off + rs)) eqn:Eb.
  - apply andb_true_iff in Eb. rewrite Nat.leb_le, Nat.ltb_lt in Eb.
    destruct (Nat.eqb_spec (b - off) (rs - 2)) as [E2|E2]; [|destruct (Nat.eqb_spec (b - off) (rs - 1)) as [E1|E1]]; tests; clear_block B.
  - apply andb_false_iff in Eb. rewrite Nat.leb_gt, Nat.ltb_ge in Eb. tests; reflexivity.
Qed.
Lemma add_split_ok X M k : valid_rank X rs -> pmx M k -> blank off k ->
  gives (add_split M off (X, rs) pi)
    (fun M1 => pmx M1 (block_at off rs (fun i => (opposition X rs i, match X with tT => (-1)%Z | _ => 1%Z end)) k)) never.
Proof.
  intros V H B. unfold add_split. cbn [fst snd]. destruct X; cbn [opposition valid_rank] in *; try (apply add_compact_ok; assumption).
  - eapply gives_mono; [apply (pput_loop rs (fun i => off + i) (fun i => off + rs - 1 - i) 1%Z M k H); intros; lia|].
    intros M1 H1. eapply pmx_ext; [exact H1|]. intros a b Ha Hb. cbv beta. rewrite (ex_off a b off rs (fun i => off + rs - 1 - i)). unfold block_at. cbn [fst snd].
    tests; clear_block B.
  - destruct (Nat.odd rs); [apply add_D_ok; [lia|assumption|assumption]|apply add_compact_ok; assumption].
  - destruct (Nat.eqb_spec rs 6) as [E|E]; [|apply add_compact_ok; assumption].
    eapply gives_bind; [apply (pput_ok _ _ _ _ _ H); lia|]. intros M1 H1.
    eapply gives_bind; [apply (pput_ok _ _ _ _ _ H1); lia|]. intros M2 H2.
    eapply gives_bind; [apply (pput_ok _ _ _ _ _ H2); lia|]. intros M3 H3.
    eapply gives_bind; [apply (pput_ok _ _ _ _ _ H3); lia|]. intros M4 H4.
    eapply gives_bind; [apply (pput_ok _ _ _ _ _ H4); lia|]. intros M5 H5.
    eapply gives_mono; [apply (pput_ok _ _ _ _ _ H5); lia|]. intros M6 H6.
    eapply pmx_ext; [exact H6|]. intros a b Ha Hb. unfold upd, block_at. cbn [fst snd].
    destruct ((off <=? b) && (b <? off + rs)) eqn:Eb.
    + apply andb_true_iff in Eb. rewrite Nat.leb_le, Nat.ltb_lt in Eb.
      assert (Q : b = off \/ b = off + 1 \/ b = off + 2 \/ b = off + 3 \/ b = off + 4 \/ b = off + 5) by lia.
      destruct Q as [->|Q]; [replace (off - off) with 0 by lia; cbn [nth]; tests; clear_block B|].
      destruct Q as [->|Q]; [replace (off + 1 - off) with 1 by lia; cbn [nth]; tests; clear_block B|].
      destruct Q as [->|Q]; [replace (off + 2 - off) with 2 by lia; cbn [nth]; tests; clear_block B|].
      destruct Q as [->|Q]; [replace (off + 3 - off) with 3 by lia; cbn [nth]; tests; clear_block B|].
      destruct Q as [->|Q]; [replace (off + 4 - off) with 4 by lia; cbn [nth]; tests; clear_block B|].
      subst b. replace (off + 5 - off) with 5 by lia; cbn [nth]; tests; clear_block B.
    + apply andb_false_iff in Eb. rewrite Nat.leb_gt, Nat.ltb_ge in Eb. tests; reflexivity.
  - apply add_minus_ok; assumption.
Qed.
Lemma add_complex_ok M k : off + (rs + rs) <= n -> pmx M k -> blank off k ->
  gives (add_complex M off rs pi) (fun M1 => pmx M1 (block_at off (rs + rs) (fun i => ((if i <? rs then rs + i else i - rs), 1%Z)) k)) never.
Proof.
  intros L2 H B. unfold add_complex.
  apply (gives_upto0 (fun l M1 => pmx M1 (fun a b =>
    if (off <=? a) && (a <? off + l) && (b =? a + rs) || (off <=? b) && (b <? off + l) && (a =? b + rs) then 1%Z else k a b))).
  - eapply pmx_ext; [exact H|]. intros a b Ha Hb. cbv beta. tests; reflexivity.
  - intros l M1 Hl H1. eapply gives_bind; [apply (pput_ok _ _ _ _ _ H1); lia|]. intros M2 H2.
    eapply gives_mono; [apply (pput_ok _ _ _ _ _ H2); lia|]. intros M3 H3.
    eapply pmx_ext; [exact H3|]. intros a b Ha Hb. unfold upd.
    destruct (Nat.eq_dec a (off + l)) as [->|Na]; [tests; clear_block B|].
    destruct (Nat.eq_dec b (off + l)) as [->|Nb]; [tests; clear_block B|]. tests; clear_block B.
  - intros M1 H1. eapply pmx_ext; [exact H1|]. intros a b Ha Hb. cbv beta. unfold block_at. cbn [fst snd].
    destruct ((off <=? b) && (b <? off + (rs + rs))) eqn:Eb.
    + apply andb_true_iff in Eb. rewrite Nat.leb_le, Nat.ltb_lt in Eb. destruct (Nat.ltb_spec (b - off) rs); tests; clear_block B.
    + apply andb_false_iff in Eb. rewrite Nat.leb_gt, Nat.ltb_ge in Eb. destruct Eb; tests; reflexivity.
Qed.
End Writing.

Lemma opposition_bound X r i : valid_rank X r -> i < r -> opposition X r i < r.
Proof.
  intros V Hi. destruct X; cbn [opposition valid_rank] in *; try assumption; try lia.
  - destruct (Nat.odd r); [|exact Hi]. destruct (Nat.eqb_spec i (r - 2)), (Nat.eqb_spec i (r - 1)); lia.
  - destruct (Nat.eqb_spec r 6) as [->|]; [|exact Hi]. do 6 (destruct i as [|i]; [cbn; lia|]). lia.
Qed.
Lemma block_blank n off r sg k : (forall i, i < r -> fst (sg i) < r) -> blank n off k -> blank n (off + r) (block_at off r sg k).
Proof.
  intros Hs B a b Ha Hb O. unfold block_at. destruct ((off <=? b) && (b <? off + r)) eqn:Eb.
  - apply andb_true_iff in Eb. rewrite Nat.leb_le, Nat.ltb_lt in Eb. specialize (Hs (b - off) ltac:(lia)).
    destruct (Nat.eqb_spec a (off + fst (sg (b - off)))); [lia|reflexivity].
  - apply B; [exact Ha|exact Hb|lia].
Qed.
Lemma block_join off r m sg sg2 k a b :
  block_at (off + r) m sg2 (block_at off r sg k) a b =
  block_at off (r + m) (fun i => if i <? r then sg i else (r + fst (sg2 (i - r)), snd (sg2 (i - r)))) k a b.
Proof.
  unfold block_at. destruct (Nat.leb_spec (off + r) b) as [A|A].
  - cbn [andb]. rewrite (proj2 (Nat.leb_le off b)) by lia. cbn [andb].
    destruct (Nat.ltb_spec b (off + r + m)), (Nat.ltb_spec b (off + (r + m))); try lia.
    + rewrite (proj2 (Nat.ltb_ge (b - off) r)) by lia. cbn [fst snd]. replace (b - off - r) with (b - (off + r)) by lia. rewrite Nat.add_assoc. reflexivity.
    + rewrite (proj2 (Nat.ltb_ge b (off + r))) by lia. reflexivity.
  - cbn [andb]. destruct (Nat.leb_spec off b); cbn [andb]; [|reflexivity].
    rewrite (proj2 (Nat.ltb_lt b (off + r))), (proj2 (Nat.ltb_lt b (off + (r + m)))), (proj2 (Nat.ltb_lt (b - off) r)) by lia. reflexivity.
Qed.
Lemma block_ext off m sg sg2 k a b : (forall i, i < m -> sg i = sg2 i) -> block_at off m sg k a b = block_at off m sg2 k a b.
Proof.
  intros H. unfold block_at. destruct ((off <=? b) && (b <? off + m)) eqn:Eb; [|reflexivity].
  apply andb_true_iff in Eb. rewrite Nat.leb_le, Nat.ltb_lt in Eb. rewrite H by lia. reflexivity.
Qed.

(** the part of [inner_map] given by the first letter *)
Definition head_map (x : icl) (X : letter) (r i : nat) : nat * Z :=
  match x with
  | ic => (i, 1%Z)
  | is => (opposition X r i, match X with tT => (-1)%Z | _ => 1%Z end)
  | iu => ((if Nat.eqb i (r - 2) then r - 1 else if Nat.eqb i (r - 1) then r - 2 else i), 1%Z)
  | iC => ((if Nat.ltb i r then r + i else i - r), 1%Z)
  | ie => (i, 1%Z)
  end.
Definition head_size (x : icl) (r : nat) : nat := match x with iC => r + r | _ => r end.
Definition head_rest (x : icl) (lt : lietype) : lietype := match x with iC => tl lt | _ => lt end.
Lemma inner_map_cons x ict X r lt i : x <> ie ->
  inner_map (x :: ict) ((X, r) :: lt) i =
  if i <? head_size x r then head_map x X r i
  else (head_size x r + fst (inner_map ict (head_rest x lt) (i - head_size x r)), snd (inner_map ict (head_rest x lt) (i - head_size x r))).
Proof.
  intros N. destruct x; cbn [inner_map head_size head_map head_rest]; try congruence.
  - destruct (Nat.ltb_spec i r), (Nat.ltb_spec i (r + r)); try lia; try reflexivity. destruct (inner_map _ _ _); reflexivity.
  - destruct (Nat.ltb_spec i r); [reflexivity|]. destruct (inner_map _ _ _); reflexivity.
  - destruct (Nat.ltb_spec i r); [reflexivity|]. destruct (inner_map _ _ _); reflexivity.
  - destruct (Nat.ltb_spec i r); [reflexivity|]. destruct (inner_map _ _ _); reflexivity.
Qed.
(** what a valid first letter says *)
Lemma valid_inner_cons x ict lt : valid_inner (x :: ict) lt -> valid_type lt ->
  exists X r lt', lt = (X, r) :: lt' /\ x <> ie /\ valid_rank X r /\ total lt = head_size x r + total (head_rest x lt') /\
    valid_inner ict (head_rest x lt') /\ valid_type (head_rest x lt') /\ (x = iu -> X = tD /\ Nat.even r = true) /\
    (x = iC -> exists lt'', lt' = (X, r) :: lt'').
Proof.
  intros H V. destruct lt as [|[X r] lt]; [destruct x; destruct H|]. inversion V as [|? ? V1 V2]. subst. exists X, r, lt. split; [reflexivity|].
  destruct x; cbn [valid_inner head_size head_rest total fst snd] in *.
  - destruct lt as [|s lt]; [destruct H|]. destruct H as [<- H]. inversion V2; subst. split; [discriminate|]. split; [exact V1|]. cbn [tl total snd] in *. split; [lia|].
    split; [exact H|]. split; [assumption|]. split; [discriminate|]. intros _. eexists. reflexivity.
  - split; [discriminate|]. split; [exact V1|]. split; [reflexivity|]. split; [exact H|]. split; [exact V2|]. split; discriminate.
  - destruct H.
  - split; [discriminate|]. split; [exact V1|]. split; [reflexivity|]. split; [exact H|]. split; [exact V2|]. split; discriminate.
  - split; [discriminate|]. split; [exact V1|]. split; [reflexivity|]. destruct X; try (destruct H; fail). destruct H as [E H]. split; [exact H|]. split; [exact V2|].
    split; [|discriminate]. intros _. split; [reflexivity|exact E].
Qed.
Lemma head_bound x X r i : valid_rank X r -> x <> ie -> (x = iu -> X = tD /\ Nat.even r = true) -> i < head_size x r -> fst (head_map x X r i) < head_size x r.
Proof.
  intros V N U Hi. destruct x; cbn [head_size head_map fst] in *; try lia.
  - destruct (Nat.ltb_spec i r); lia.
  - apply opposition_bound; assumption.
  - destruct (U eq_refl) as [-> _]. cbn in V. destruct (Nat.eqb_spec i (r - 2)), (Nat.eqb_spec i (r - 1)); lia.
Qed.
Lemma involution_from_ok n pi ict : permutes n pi -> forall lt off M k, valid_inner ict lt -> valid_type lt -> off + total lt = n ->
  pmx n pi M k -> blank n off k ->
  gives (involution_from ict lt off pi M) (fun M1 => pmx n pi M1 (block_at off (total lt) (inner_map ict lt) k)) never.
Proof.
  intros P. induction ict as [|x ict IH]; intros lt off M k VI V E H B.
  - destruct lt; [|destruct VI]. cbn [involution_from gives total]. eapply pmx_ext; [exact H|]. intros a b Ha Hb. unfold block_at.
    rewrite Nat.add_0_r. destruct (Nat.leb_spec off b), (Nat.ltb_spec b off); try lia; reflexivity.
  - destruct (valid_inner_cons x ict lt VI V) as (X & r & lt' & -> & N & VR & T & VI' & V' & U & C).
    assert (R : gives (match x with ic => add_compact M off r pi | is => add_split M off (X, r) pi | iC => add_complex M off r pi
                       | iu => add_D M off r pi | ie => Ok M end)
        (fun M1 => pmx n pi M1 (block_at off (head_size x r) (head_map x X r) k)) never).
    { destruct x; cbn [head_size head_map] in *.
      - apply add_complex_ok; try assumption; lia.
      - apply add_compact_ok; try assumption; lia.
      - congruence.
      - apply add_split_ok; try assumption; lia.
      - apply add_D_ok; try assumption; [lia|]. destruct (U eq_refl) as [-> _]. cbn in VR. lia. }
    assert (G : gives (bind (match x with ic => add_compact M off r pi | is => add_split M off (X, r) pi | iC => add_complex M off r pi
                       | iu => add_D M off r pi | ie => Ok M end) (fun M1 => involution_from ict (head_rest x lt') (off + head_size x r) pi M1))
        (fun M1 => pmx n pi M1 (block_at off (total ((X, r) :: lt')) (inner_map (x :: ict) ((X, r) :: lt')) k)) never).
    { eapply gives_bind; [exact R|]. cbv beta. intros M1 H1. eapply gives_mono; [apply (IH (head_rest x lt') (off + head_size x r) M1 _ VI' V' ltac:(lia) H1)|].
      - apply block_blank; [|exact B]. intros i Hi. apply head_bound; assumption.
      - intros M2 H2. eapply pmx_ext; [exact H2|]. intros a b Ha Hb. rewrite block_join, T. apply block_ext.
        intros i Hi. rewrite inner_map_cons by exact N. reflexivity. }
    destruct x; cbn [involution_from head_rest head_size fst snd] in *; try exact G.
    rewrite <- Nat.add_assoc. exact G.
Qed.
Lemma involution_ok lo : let n := total (l_type lo) in
  valid_type (l_type lo) -> valid_inner (l_inner lo) (l_type lo) -> permutes n (l_perm lo) ->
  gives (involution lo) (fun M => exists g, is_mx M n n g /\ forall a b, a < n -> b < n ->
    g (nth a (l_perm lo) 0) (nth b (l_perm lo) 0) =
    if a =? fst (inner_map (l_inner lo) (l_type lo) b) then snd (inner_map (l_inner lo) (l_type lo) b) else 0%Z) never.
Proof.
  intros n V VI P. unfold involution. rewrite lt_rank_total. fold n.
  eapply gives_mono; [apply (involution_from_ok n (l_perm lo) (l_inner lo) P (l_type lo) 0 _ (fun _ _ => 0%Z) VI V eq_refl)|].
  - exists (fun _ _ => 0%Z). split; [apply fill_ok|reflexivity].
  - intros a b _ _ _. reflexivity.
  - intros M (g & H1 & H2). exists g. split; [exact H1|]. intros a b Ha Hb. rewrite H2 by assumption. unfold block_at. fold n. cbn [Nat.leb Nat.add andb].
    rewrite (proj2 (Nat.ltb_lt b n)) by exact Hb. rewrite Nat.sub_0_r. reflexivity.
Qed.
