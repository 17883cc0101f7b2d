(** Simple reflections as permutations of the numbers of roots; sets of roots. *)

From Coq Require Import List Arith ZArith Bool Lia Sorted Permutation.
From Verif Require Import VecModel VecProofs RunModel RunProofs MatModel MatSpec MatRing MatLin MatProofs SizeModel BitsetSpec DynBits DynkinModel LieTypeSpec
  RootModel RootSpec RootMath RootForm RootFin RootBase RootSys RootAcc RootExt RootUniq RootTop RootPerm RsfModel DatMath.
Import ListNotations.
Local Open Scope Z_scope.

Lemma opp_up n C v : up n C v -> nonneg (opp v) -> False.
Proof. intros U N. pose proof (up_height n C v U) as Q. rewrite height_zsum in Q. assert (zsum (length v) (co v) <= zsum (length v) (fun _ => 0)). { apply zsum_le. intros k _. pose proof (N k) as K. rewrite co_opp in K. lia. } rewrite zsum_const in *. lia. Qed.

(** ** sets *)
Lemma members_in (b : bset) a : In a (members b) <-> bmem b a = true.
Proof.
  unfold members. rewrite filter_In, in_seq. split; [intros [_ M]; exact M|]. intros M. split; [|exact M]. destruct (le_lt_dec (length b) a) as [Q|Q]; [rewrite bmem_over in M by exact Q; discriminate|lia].
Qed.
Lemma bmem_put (b : bset) x v : (x < length b)%nat -> exists b', vput b x v = Ok b' /\ length b' = length b /\ forall a, bmem b' a = if Nat.eqb a x then v else bmem b a.
Proof.
  intros H. destruct (vput_ok b x v H) as (b' & E & L & G). exists b'. split; [exact E|]. split; [exact L|]. intros a. specialize (G a). unfold bmem, get in *. destruct (Nat.eqb_spec a x) as [Q0|N].
  - apply nth_error_nth. exact G.
  - destruct (nth_error b a) as [y|] eqn:Q; [rewrite (nth_error_nth _ _ _ Q); apply nth_error_nth; exact G|]. apply nth_error_None in Q. rewrite !nth_overflow by lia. reflexivity.
Qed.
Lemma bmem_diff a b x : length a = length b -> bmem (bdiff a b) x = bmem a x && negb (bmem b x).
Proof.
  unfold bdiff, bmem. revert b x. induction a as [|u a IH]; intros [|w b] x L; cbn in L; try lia; [destruct x; reflexivity|]. destruct x; [reflexivity|]. cbn. apply IH. lia.
Qed.
Lemma bmem_union a b x : length a = length b -> bmem (bunion a b) x = bmem a x || bmem b x.
Proof.
  unfold bunion, bmem. revert b x. induction a as [|u a IH]; intros [|w b] x L; cbn in L; try lia; [destruct x; reflexivity|]. destruct x; [reflexivity|]. cbn. apply IH. lia.
Qed.
Lemma diff_length a b : length a = length b -> length (bdiff a b) = length a. Proof. intros L. unfold bdiff. rewrite map_length, combine_length. lia. Qed.
Lemma union_length a b : length a = length b -> length (bunion a b) = length a. Proof. intros L. unfold bunion. rewrite map_length, combine_length. lia. Qed.
Lemma gives_bset {S} (I : nat -> S -> Prop) (b : bset) (g : nat -> S -> res S) (x : S) (Q : S -> Prop) (E : err -> Prop) : I 0%nat x ->
  (forall k y, (k < length b)%nat -> bmem b k = true -> I k y -> gives (g k y) (I (Datatypes.S k)) E) ->
  (forall k y, (k < length b)%nat -> bmem b k = false -> I k y -> I (Datatypes.S k) y) -> (forall y, I (length b) y -> Q y) -> gives (each b g x) Q E.
Proof.
  intros I0 Y N F. unfold each. apply (gives_upto0 I); [exact I0| |exact F]. intros k y Hk Iy. destruct (bmem b k) eqn:M; [apply Y; assumption|]. cbn [gives]. apply N; assumption.
Qed.

Section Free.
Variables (n : nat) (f : nat -> nat -> Z) (c : matrix Z) (pc : bool) (s : rootsys).
Hypothesis n32 : (n <= 32)%nat.
Hypothesis ft : finite_type n f.
Hypothesis mc : is_mx c n n f.
Hypothesis made : root_system c pc = Ok s.
Notation np := (num_pos s).
Notation rt := (root_at s).
Notation crt := (coroot_at s).

Lemma f_cart : Cartan_like n f /\ Cartan_like n (flip f).
Proof. destruct (top_good n f ft) as [g g']. split; [exact (proj1 g)|exact (proj1 g')]. Qed.
Lemma f_small i j : (i < n)%nat -> (j < n)%nat -> i <> j -> f i j * f j i <= 3.
Proof. destruct (top_good n f ft) as [g g']. apply (small3 n f g). Qed.
Lemma rk : s_rank s = n.
Proof. apply (y_rank n f s (proj1 (top_system n f c pc s n32 ft mc made))). Qed.
Lemma rt_rc a : (a < 2 * np)%nat -> root_coroot n f (rt a) (crt a).
Proof. intros H. apply (top_numbers n f c pc s n32 ft mc made a H). Qed.
Lemma rt_len a : (a < 2 * np)%nat -> length (rt a) = n /\ length (crt a) = n.
Proof. intros H. apply (root_coroot_length n f _ _ (rt_rc a H)). Qed.
Lemma rt_up a : (np <= a < 2 * np)%nat -> up n f (rt a).
Proof. intros H. apply (nonneg_up n f (proj1 f_cart) f_small); [exists (crt a); apply rt_rc; lia|]. apply (top_sign n f c pc s n32 ft mc made a); unfold num_roots; lia. Qed.
Lemma up_pos a : (a < 2 * np)%nat -> up n f (rt a) -> (np <= a)%nat.
Proof. intros H U. apply (top_sign n f c pc s n32 ft mc made a H). apply (up_nonneg n f _ U). Qed.
Lemma rt_eq a b : (a < 2 * np)%nat -> (b < 2 * np)%nat -> rt a = rt b -> a = b.
Proof. intros Ha Hb E. apply (top_inj n f c pc s n32 ft mc made a b Ha Hb). left; exact E. Qed.
Lemma simple_lt i : (i < n)%nat -> (i < np)%nat /\ rt (np + i) = basis n i /\ crt (np + i) = basis n i.
Proof. intros Hi. destruct (top_simple n f c pc s n32 ft mc made i Hi) as (A & B & D). unfold num_roots in A. split; [lia|]. split; assumption. Qed.
Lemma minus_ok a : (a < 2 * np)%nat -> (minus_nr np a < 2 * np)%nat /\ minus_nr np a = (2 * np - 1 - a)%nat /\ rt (minus_nr np a) = opp (rt a) /\ crt (minus_nr np a) = opp (crt a).
Proof. intros H. destruct (top_minus n f c pc s n32 ft mc made a H) as (A & B & D). split; [exact A|]. split; [reflexivity|]. split; assumption. Qed.

(** ** simple reflections *)
Definition sgt (i b : nat) : nat := match simple_reflected s i b with Ok d => d | Fail _ => 0%nat end.
Lemma sgt_ok i b : (i < n)%nat -> (b < 2 * np)%nat -> simple_reflected s i b = Ok (sgt i b) /\ (sgt i b < 2 * np)%nat /\ rt (sgt i b) = sreflect n f i (rt b) /\ crt (sgt i b) = sreflect n (flip f) i (crt b).
Proof.
  intros Hi Hb. destruct (top_simple_reflected n f c pc s n32 ft mc made i b Hi Hb) as (d & E & Hd & E1 & E2). unfold sgt. rewrite E. split; [reflexivity|]. split; [exact Hd|]. split; assumption.
Qed.
Lemma sgt_sgt i b : (i < n)%nat -> (b < 2 * np)%nat -> sgt i (sgt i b) = b.
Proof.
  intros Hi Hb. destruct (sgt_ok i b Hi Hb) as (_ & H1 & E1 & _). destruct (sgt_ok i (sgt i b) Hi H1) as (_ & H2 & E2 & _). apply rt_eq; [exact H2|exact Hb|]. rewrite E2, E1.
  apply (sr_sr n f (proj1 f_cart)); [exact Hi|]. apply rt_len; exact Hb.
Qed.
Lemma sgt_minus i b : (i < n)%nat -> (b < 2 * np)%nat -> sgt i (minus_nr np b) = minus_nr np (sgt i b).
Proof.
  intros Hi Hb. destruct (minus_ok b Hb) as (Hm & _ & Em & _). destruct (sgt_ok i b Hi Hb) as (_ & H1 & E1 & _). destruct (sgt_ok i _ Hi Hm) as (_ & H2 & E2 & _). destruct (minus_ok _ H1) as (H3 & _ & E3 & _).
  apply rt_eq; [exact H2|exact H3|]. rewrite E2, E3, E1, Em. apply sr_opp. rewrite (proj1 (rt_len b Hb)). exact Hi.
Qed.
Lemma sgt_simple i : (i < n)%nat -> sgt i (np + i) = (np - 1 - i)%nat.
Proof.
  intros Hi. destruct (simple_lt i Hi) as (Hp & Es & _). assert (Hb : (np + i < 2 * np)%nat) by lia. destruct (sgt_ok i _ Hi Hb) as (_ & H1 & E1 & _). destruct (minus_ok _ Hb) as (Hm & Em & Er & _).
  replace (np - 1 - i)%nat with (minus_nr np (np + i)) by (rewrite Em; lia). apply rt_eq; [exact H1|exact Hm|]. rewrite E1, Er, Es. apply (sr_basis n f (proj1 f_cart) i Hi).
Qed.
Lemma sgt_pos i b : (i < n)%nat -> (np <= b < 2 * np)%nat -> b <> (np + i)%nat -> (np <= sgt i b < 2 * np)%nat /\ sgt i b <> (np + i)%nat.
Proof.
  intros Hi Hb N. destruct (simple_lt i Hi) as (Hp & Es & _). destruct (sgt_ok i b Hi ltac:(lia)) as (_ & H1 & E1 & _). split.
  - split; [|exact H1]. apply up_pos; [exact H1|]. rewrite E1. apply (up_closed n f (proj1 f_cart) f_small); [apply rt_up; exact Hb|exact Hi|]. intros Q. apply N. apply rt_eq; [lia|lia|]. congruence.
  - intros Q. assert (b = (np - 1 - i)%nat); [|lia]. rewrite <- (sgt_sgt i b Hi ltac:(lia)), Q. apply sgt_simple; exact Hi.
Qed.
(** ** words *)
Definition mv (w : list nat) (a : nat) : nat := fold_right sgt a w.
Lemma mv_ok w a : Forall (fun i => (i < n)%nat) w -> (a < 2 * np)%nat -> (mv w a < 2 * np)%nat /\ rt (mv w a) = word_act n f w (rt a) /\ crt (mv w a) = word_act n (flip f) w (crt a).
Proof.
  intros F Ha. induction F as [|i w Hi F IH]; [cbn; split; [exact Ha|split; reflexivity]|]. destruct IH as (H1 & E1 & E2). cbn [mv fold_right word_act]. change (fold_right sgt a w) with (mv w a).
  destruct (sgt_ok i _ Hi H1) as (_ & H3 & E3 & E4). split; [exact H3|]. rewrite E3, E4, E1, E2. split; reflexivity.
Qed.
Lemma mv_minus w a : Forall (fun i => (i < n)%nat) w -> (a < 2 * np)%nat -> mv w (minus_nr np a) = minus_nr np (mv w a).
Proof.
  intros F Ha. induction F as [|i w Hi F IH]; [reflexivity|]. cbn [mv fold_right]. change (fold_right sgt a w) with (mv w a). change (fold_right sgt (minus_nr np a) w) with (mv w (minus_nr np a)). rewrite IH. apply sgt_minus; [exact Hi|].
  apply mv_ok; assumption.
Qed.
Lemma mv_app w1 w2 a : mv (w1 ++ w2) a = mv w1 (mv w2 a). Proof. apply fold_right_app. Qed.

(** ** sets *)
Lemma orth a b : (a < 2 * np)%nat -> (b < 2 * np)%nat -> exists t, is_orthogonal s a b = Ok t /\ (t = true <-> value n f (rt a) (crt b) = 0).
Proof.
  intros Ha Hb. destruct (top_orthogonal n f c pc s n32 ft mc made a b Ha Hb) as (t & E & Q). exists t. split; [exact E|]. rewrite Q. 
  destruct (top_good n f ft) as [(_ & [d fd] & _) _]. apply (values_sign n f d (proj1 f_cart) (proj1 fd) (proj1 (proj2 fd)) _ _ _ _ (rt_rc b Hb) (rt_rc a Ha)).
Qed.
Lemma sticks_ok alpha l : (alpha < 2 * np)%nat -> Forall (fun b => (b < 2 * np)%nat) l -> exists t, sticks s alpha l = Ok t /\ (t = true <-> exists b, In b l /\ value n f (rt alpha) (crt b) <> 0).
Proof.
  intros Ha F. induction F as [|b l Hb F IH].
  - exists false. split; [reflexivity|]. split; [discriminate|]. intros (b & [] & _).
  - cbn [sticks]. destruct (orth alpha b Ha Hb) as (t & -> & Q). cbn [bind]. destruct t.
    + destruct IH as (t & E & K). exists t. split; [exact E|]. rewrite K. pose proof (proj1 Q eq_refl) as Z0. split; [intros (x & I & V); exists x; split; [right; exact I|exact V]|]. intros (x & [<-|I] & V); [contradiction|]. exists x. split; assumption.
    + exists true. split; [reflexivity|]. split; [|reflexivity]. intros _. exists b. split; [left; reflexivity|]. intros V. apply Q in V. discriminate.
Qed.
End Free.
