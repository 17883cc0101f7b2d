(** The traversal of a component of a Dynkin diagram. *)

From Coq Require Import List Arith ZArith Bool Lia Permutation.
From Verif Require Import VecModel VecProofs RunModel RunProofs BitsetModel BitsetSpec LieTypeModel LieTypeSpec DynkinModel DynBits DynGraph.
Import ListNotations.
Local Open Scope nat_scope.

(** the neighbour sets stored in a diagram *)
Definition stars (star : list Z) (n : nat) (adj : nat -> nat -> bool) : Prop :=
  length star = n /\ n <= 32 /\
  (forall i, i < n -> is32 (nth i star 0%Z) /\ forall j, mem (nth i star 0%Z) j = adj i j) /\
  (forall i j, adj i j = true -> i < n /\ j < n).

Lemma vget_nth {A} (v : list A) i x : i < length v -> vget v i = Ok (nth i v x).
Proof.
  revert i. induction v as [|y v IH]; intros [|i] H; cbn [length] in H; try lia; [reflexivity|].
  unfold vget in *. cbn [get nth]. apply IH. lia.
Qed.

Lemma nodup_remove a (x : nat) : is32 a -> mem a x = true -> x < 32 -> length (els (nreset a x)) < length (els a).
Proof.
  intros H M L. destruct (nreset_ok a x H L) as [W E].
  assert (NoDup (x :: els (nreset a x))).
  { constructor; [|apply els_nodup]. rewrite els_in by auto. rewrite E, Nat.eqb_refl. discriminate. }
  assert (I : incl (x :: els (nreset a x)) (els a)).
  { intros y [<-|Hy]; rewrite els_in by auto; [auto|]. rewrite els_in in Hy by auto. rewrite E in Hy. apply andb_true_iff in Hy as [_ Hy]. exact Hy. }
  apply NoDup_incl_length in I; [|auto]. cbn [length] in I. lia.
Qed.

Section Trav.
Variable star : list Z.
Variable n : nat.
Variable adj : nat -> nat -> bool.
Hypothesis adj_sym : forall i j, adj i j = adj j i.
Hypothesis adj_irr : forall i, adj i i = false.
Hypothesis ST : stars star n adj.

Lemma star_get i : i < n -> vget star i = Ok (nth i star 0%Z).
Proof. intros H. apply vget_nth. destruct ST as [-> _]. exact H. Qed.
Lemma star_32 i : i < n -> is32 (nth i star 0%Z).
Proof. intros H. apply ST. exact H. Qed.
Lemma star_mem i j : i < n -> mem (nth i star 0%Z) j = adj i j.
Proof. intros H. apply ST. exact H. Qed.
Lemma n32 : n <= 32. Proof. apply ST. Qed.
Lemma adj_lt i j : adj i j = true -> i < n /\ j < n.
Proof. apply ST. Qed.

(** consecutive elements, and no others, are joined *)
Definition linear (q : list nat) : Prop :=
  forall a b, a < length q -> b < length q -> adj (nth a q 0) (nth b q 0) = line a b.
Definition lists (q : list nat) (R : nat -> bool) : Prop := NoDup q /\ forall u, In u q <-> R u = true.

Lemma linear_cons x q : linear q -> ~ In x q -> (forall b, b < length q -> adj x (nth b q 0) = (b =? 0)) -> linear (x :: q).
Proof.
  intros L N H [|a] [|b] Ha Hb; cbn [length nth] in *.
  - rewrite adj_irr. reflexivity.
  - rewrite H by lia. unfold line. destruct b; reflexivity.
  - rewrite adj_sym, H by lia. unfold line. destruct a; reflexivity.
  - rewrite L by lia. reflexivity.
Qed.
Lemma lists_cons x q R : R x = true -> lists q (without R x) -> lists (x :: q) R.
Proof.
  intros Rx [N I]. split.
  - constructor; [|exact N]. rewrite I. unfold without. rewrite Nat.eqb_refl. discriminate.
  - intros u. cbn [In]. rewrite I. unfold without. destruct (Nat.eqb_spec u x) as [->|Nx]; cbn [negb andb].
    + split; auto.
    + split; [intros [->|H]; [contradiction|exact H]|auto].
Qed.
Lemma lists_ext q R R' : (forall u, R u = R' u) -> lists q R -> lists q R'.
Proof. intros E [N I]. split; [exact N|]. intros u. rewrite <- E. apply I. Qed.

Lemma leaf_ext R R' x : (forall u, R u = R' u) -> leaf adj R x -> leaf adj R' x.
Proof. intros E L u v. rewrite <- !E. apply L. Qed.
Lemma thin_ext R R' x : (forall u, R u = R' u) -> thin adj R x -> thin adj R' x.
Proof. intros E L u v w. rewrite <- !E. apply L. Qed.

(** the state after placing [x], where [x] is an end point of [R] *)
Lemma step_facts R x : (forall u, R u = true -> thin adj R u) -> R x = true -> leaf adj R x ->
  (forall u, without R x u = true -> thin adj (without R x) u) /\
  (forall y, without R x y = true -> adj x y = true -> leaf adj (without R x) y).
Proof.
  intros Th Rx L. split.
  - intros u Ru a b c Ra Rb Rc. unfold without in *. apply andb_true_iff in Ru as [_ Ru].
    apply andb_true_iff in Ra as [_ Ra]. apply andb_true_iff in Rb as [_ Rb]. apply andb_true_iff in Rc as [_ Rc]. apply Th; auto.
  - intros y Ry Exy u v Ru Rv Eu Ev. unfold without in *. apply andb_true_iff in Ry as [_ Ry].
    apply andb_true_iff in Ru as [Nu Ru]. apply andb_true_iff in Rv as [Nv Rv].
    apply negb_true_iff, Nat.eqb_neq in Nu. apply negb_true_iff, Nat.eqb_neq in Nv.
    destruct (Th y Ry u v x Ru Rv Rx Eu Ev) as [E|[E|E]]; [rewrite adj_sym; auto|auto|contradiction|contradiction].
Qed.

Lemma traverse_line isD k : forall R start pos,
  is32 R -> (forall u, mem R u = true -> u < n) -> length (els R) <= k ->
  connected adj (mem R) -> mem R start = true ->
  (forall u, mem R u = true -> thin adj (mem R) u) -> leaf adj (mem R) start ->
  exists q, traverse k star isD start R pos = Ok (pos ++ start :: q) /\ lists (start :: q) (mem R) /\ linear (start :: q).
Proof.
  induction k as [|k IH]; intros R start pos W Lt Len C Rs Th Lf.
  - exfalso. apply (els_in R start W) in Rs. destruct (els R); [destruct Rs|cbn in Len; lia].
  - cbn [traverse]. pose proof (Lt _ Rs) as Hs. pose proof n32 as H32. destruct (nreset_ok R start W ltac:(lia)) as [W1 E1].
    assert (E1' : forall u, without (mem R) start u = mem (nreset R start) u) by (intros u; rewrite E1; reflexivity).
    destruct (any1 (nreset R start)) eqn:A.
    + rewrite star_get by auto. cbn [bind].
      destruct (and_ok (nth start star 0%Z) (nreset R start) (star_32 _ Hs) W1) as [W2 E2].
      apply (any_iff _ W1) in A as [z Rz].
      assert (Rz' := Rz). rewrite E1 in Rz'. apply andb_true_iff in Rz' as [Nz Rz']. apply negb_true_iff, Nat.eqb_neq in Nz.
      destruct (connected_nbr adj (mem R) start z C Rs Rz' ltac:(congruence)) as (u & Ru & Eu).
      assert (Mu : mem (and1 (nth start star 0%Z) (nreset R start)) u = true).
      { rewrite E2, E1, star_mem, Eu, Ru by auto. destruct (Nat.eqb_spec u start) as [->|]; [rewrite adj_irr in Eu; discriminate|reflexivity]. }
      rewrite (proj2 (any_iff _ W2)) by eauto.
      destruct (nfirst_ok _ u W2 Mu) as (Mf & _ & _). set (s' := nfirst _) in *.
      assert (Es : s' = u).
      { rewrite E2, E1, star_mem in Mf by auto. apply andb_true_iff in Mf as [Ea Mf]. apply andb_true_iff in Mf as [_ Mf].
        apply (Lf s' u); auto. }
      rewrite Es. clear Es Mf s'.
      destruct (step_facts (mem R) start Th Rs Lf) as [Th1 Lf1].
      assert (Ru1 : mem (nreset R start) u = true).
      { rewrite E2 in Mu. apply andb_true_iff in Mu as [_ Mu]. exact Mu. }
      destruct (IH (nreset R start) u (pos ++ [start])) as (q & Eq & Lq & Nq); auto.
      * intros v Rv. apply Lt. rewrite E1 in Rv. apply andb_true_iff in Rv as [_ Rv]. exact Rv.
      * pose proof (nodup_remove R start W Rs ltac:(lia)). lia.
      * apply (connected_ext adj (without (mem R) start)); [exact E1'|]. apply connected_without; auto.
      * intros v Rv. apply (thin_ext (without (mem R) start)); [exact E1'|]. apply Th1. rewrite E1'. exact Rv.
      * apply (leaf_ext (without (mem R) start)); [exact E1'|]. apply Lf1; [rewrite E1'; exact Ru1|exact Eu].
      * exists (u :: q). split; [rewrite Eq, <- app_assoc; reflexivity|]. split.
        -- apply lists_cons; [exact Rs|]. apply (lists_ext _ (mem (nreset R start))); [intros; symmetry; apply E1'|exact Lq].
        -- apply linear_cons; [exact Nq| |].
           ++ intros I. apply Lq in I. rewrite E1, Nat.eqb_refl in I. discriminate.
           ++ intros b Hb. destruct Lq as [ND I]. destruct b as [|b]; [exact Eu|]. cbn [Nat.eqb].
              destruct (adj start (nth (S b) (u :: q) 0)) eqn:Ex; [|reflexivity]. exfalso.
              assert (Iv : In (nth (S b) (u :: q) 0) (u :: q)) by (apply nth_In; auto).
              apply I in Iv. rewrite E1 in Iv. apply andb_true_iff in Iv as [_ Iv].
              assert (Ev := Lf _ _ Iv Ru Ex Eu).
              assert (S b = 0); [|discriminate]. apply (proj1 (NoDup_nth (u :: q) 0) ND); cbn [length] in *; try lia. exact Ev.
    + exists []. split; [reflexivity|]. pose proof (proj1 (any_false _ W1) A) as A1. split.
      * apply lists_cons; [exact Rs|]. split; [constructor|]. intros u. rewrite E1', A1. split; [intros []|discriminate].
      * intros [|a] [|b] Ha Hb; cbn [length] in *; try lia. cbn [nth]. rewrite adj_irr. reflexivity.
Qed.

(** with a fork [f] having end points [l1] and [l2] next to it; [R] is the set without [l2] *)
Lemma traverse_fork f l1 l2 : l1 < l2 -> l2 < n -> adj f l1 = true -> adj f l2 = true ->
  (forall u, adj l1 u = true -> u = f) -> (forall u, adj l2 u = true -> u = f) ->
  forall k R M start pos,
  is32 R -> is32 M -> (forall u, mem M u = (u =? l2) || mem R u) -> mem R l2 = false ->
  (forall u, mem R u = true -> u < n) -> length (els M) <= k ->
  connected adj (mem R) -> mem R start = true -> mem R f = true -> mem R l1 = true -> start <> l1 ->
  (forall u, mem R u = true -> thin adj (mem R) u) -> leaf adj (mem R) start ->
  exists q, traverse k star true start M pos = Ok (pos ++ q ++ [f; l1; l2]) /\
    hd 0 (q ++ [f]) = start /\ lists (q ++ [f; l1]) (mem R) /\ linear (q ++ [f; l1]).
Proof.
  intros H12 H2n Ef1 Ef2 O1 O2. pose proof n32 as H32.
  assert (Nf1 : f <> l1) by (intros ->; rewrite adj_irr in Ef1; discriminate).
  assert (Nf2 : f <> l2) by (intros ->; rewrite adj_irr in Ef2; discriminate).
  induction k as [|k IH]; intros R M start pos W WM EM R2 Lt Len C Rs Rf R1 Ns Th Lf.
  - exfalso. assert (I : mem M start = true) by (rewrite EM, Rs; apply orb_true_r).
    apply (els_in M start WM) in I. destruct (els M); [destruct I|cbn in Len; lia].
  - pose proof (Lt _ Rs) as Hs.
    assert (Ms : mem M start = true) by (rewrite EM, Rs; apply orb_true_r).
    destruct (nreset_ok M start WM ltac:(lia)) as [WM1 EM1].
    destruct (nreset_ok R start W ltac:(lia)) as [W1 E1].
    assert (E1' : forall u, without (mem R) start u = mem (nreset R start) u) by (intros u; rewrite E1; reflexivity).
    assert (Ns2 : start <> l2) by (intros ->; congruence).
    assert (EM1' : forall u, mem (nreset M start) u = (u =? l2) || mem (nreset R start) u).
    { intros u. rewrite EM1, EM, E1. destruct (Nat.eqb_spec u l2) as [->|]; [|reflexivity]. cbn [orb]. rewrite andb_true_r.
      apply negb_true_iff, Nat.eqb_neq. congruence. }
    assert (Len1 : length (els (nreset M start)) <= k) by (pose proof (nodup_remove M start WM Ms ltac:(lia)); lia).
    cbn [traverse].
    rewrite (proj2 (any_iff _ WM1)) by (exists l2; rewrite EM1', Nat.eqb_refl; reflexivity).
    rewrite star_get by auto. cbn [bind].
    destruct (and_ok (nth start star 0%Z) (nreset M start) (star_32 _ Hs) WM1) as [W2 E2].
    destruct (step_facts (mem R) start Th Rs Lf) as [Th1 Lf1].
    destruct (Nat.eq_dec start f) as [->|Nf].
    + (* at the fork *)
      assert (M1 : mem (and1 (nth f star 0%Z) (nreset M f)) l1 = true).
      { rewrite E2, star_mem, Ef1, EM1', E1, R1 by auto. destruct (Nat.eqb_spec l1 f); [congruence|]. apply orb_true_r. }
      rewrite (proj2 (any_iff _ W2)) by eauto.
      destruct (nfirst_ok _ l1 W2 M1) as (Mf & Le & _). set (s' := nfirst _) in *.
      assert (Es : s' = l1).
      { rewrite E2, star_mem, EM1', E1 in Mf by auto. apply andb_true_iff in Mf as [Ea Mf]. apply orb_true_iff in Mf as [Mf|Mf].
        - apply Nat.eqb_eq in Mf. lia.
        - apply andb_true_iff in Mf as [_ Mf]. apply (Lf s' l1); auto. }
      rewrite Es. clear Es Mf Le s'.
      assert (Only : forall u, mem (nreset R f) u = true -> u = l1).
      { apply (connected_closed adj (mem (nreset R f)) (fun u => u = l1) l1); auto.
        - apply (connected_ext adj (without (mem R) f)); [exact E1'|]. apply connected_without; auto.
        - rewrite E1, R1. destruct (Nat.eqb_spec l1 f); [congruence|reflexivity].
        - intros a b Ra Rb Eab ->. apply O1 in Eab. subst b. rewrite E1, Nat.eqb_refl in Rb. discriminate. }
      destruct k as [|k].
      { exfalso. assert (I : mem (nreset M f) l2 = true) by (rewrite EM1', Nat.eqb_refl; reflexivity).
        apply (els_in _ l2 WM1) in I. destruct (els (nreset M f)); [destruct I|cbn in Len1; lia]. }
      assert (H1n : l1 < n) by (apply Lt; auto).
      assert (Ml1 : mem (nreset M f) l1 = true).
      { rewrite E2 in M1. apply andb_true_iff in M1 as [_ M1]. exact M1. }
      destruct (nreset_ok (nreset M f) l1 WM1 ltac:(lia)) as [WM2 EM2].
      assert (EM2' : forall u, mem (nreset (nreset M f) l1) u = (u =? l2)).
      { intros u. rewrite EM2, EM1'. destruct (Nat.eqb_spec u l1) as [->|N1]; cbn [negb andb].
        - destruct (Nat.eqb_spec l1 l2); [lia|reflexivity].
        - destruct (mem (nreset R f) u) eqn:Ru; [apply Only in Ru; contradiction|]. apply orb_false_r. }
      assert (Len2 : length (els (nreset (nreset M f) l1)) <= k) by (pose proof (nodup_remove (nreset M f) l1 WM1 Ml1 ltac:(lia)); lia).
      cbn [traverse].
      rewrite (proj2 (any_iff _ WM2)) by (exists l2; rewrite EM2', Nat.eqb_refl; reflexivity).
      rewrite star_get by auto. cbn [bind].
      destruct (and_ok (nth l1 star 0%Z) (nreset (nreset M f) l1) (star_32 _ H1n) WM2) as [W3 E3].
      assert (A3 : any1 (and1 (nth l1 star 0%Z) (nreset (nreset M f) l1)) = false).
      { apply (any_false _ W3). intros u. rewrite E3, star_mem, EM2' by auto. destruct (Nat.eqb_spec u l2) as [->|]; [|apply andb_false_r].
        destruct (adj l1 l2) eqn:E12; [|reflexivity]. apply O1 in E12. congruence. }
      rewrite A3.
      destruct (nfirst_ok _ l2 WM2 ltac:(rewrite EM2'; apply Nat.eqb_refl)) as (Mf & _ & _). rewrite EM2' in Mf. apply Nat.eqb_eq in Mf. rewrite Mf.
      destruct k as [|k].
      { exfalso. assert (I : mem (nreset (nreset M f) l1) l2 = true) by (rewrite EM2', Nat.eqb_refl; reflexivity).
        apply (els_in _ l2 WM2) in I. destruct (els (nreset (nreset M f) l1)); [destruct I|cbn in Len2; lia]. }
      cbn [traverse]. destruct (nreset_ok (nreset (nreset M f) l1) l2 WM2 ltac:(lia)) as [WM3 EM3].
      assert (A4 : any1 (nreset (nreset (nreset M f) l1) l2) = false).
      { apply (any_false _ WM3). intros u. rewrite EM3, EM2'. destruct (u =? l2); reflexivity. }
      rewrite A4. exists []. cbn [app hd]. split; [rewrite <- !app_assoc; reflexivity|]. split; [reflexivity|]. split.
      * apply lists_cons; [exact Rf|]. split; [constructor; [intros []|constructor]|]. intros u. rewrite E1'. split.
        -- intros [<-|[]]. rewrite E1, R1. destruct (Nat.eqb_spec l1 f); [congruence|reflexivity].
        -- intros Hu. left. symmetry. apply Only. exact Hu.
      * intros [|[|a]] [|[|b]] Ha Hb; cbn [length] in *; try lia; cbn [nth]; rewrite ?adj_irr; try reflexivity; try exact Ef1; rewrite adj_sym; exact Ef1.
    + (* before the fork *)
      destruct (connected_nbr adj (mem R) start f C Rs Rf Nf) as (u & Ru & Eu).
      assert (Nu : u <> start) by (intros ->; rewrite adj_irr in Eu; discriminate).
      assert (Ru1 : mem (nreset R start) u = true).
      { rewrite E1, Ru. destruct (Nat.eqb_spec u start); [contradiction|reflexivity]. }
      assert (Mu : mem (and1 (nth start star 0%Z) (nreset M start)) u = true).
      { rewrite E2, star_mem, Eu, EM1', Ru1 by auto. apply orb_true_r. }
      rewrite (proj2 (any_iff _ W2)) by eauto.
      destruct (nfirst_ok _ u W2 Mu) as (Mf & _ & _). set (s' := nfirst _) in *.
      assert (Es : s' = u).
      { rewrite E2, star_mem, EM1', E1 in Mf by auto. apply andb_true_iff in Mf as [Ea Mf]. apply orb_true_iff in Mf as [Mf|Mf].
        - apply Nat.eqb_eq in Mf. rewrite Mf, adj_sym in Ea. apply O2 in Ea. contradiction.
        - apply andb_true_iff in Mf as [_ Mf]. apply (Lf s' u); auto. }
      rewrite Es. clear Es Mf s'.
      assert (Nul : u <> l1). { intros ->. rewrite adj_sym in Eu. apply O1 in Eu. contradiction. }
      assert (Rf1 : mem (nreset R start) f = true).
      { rewrite E1, Rf. destruct (Nat.eqb_spec f start); [congruence|reflexivity]. }
      assert (R11 : mem (nreset R start) l1 = true).
      { rewrite E1, R1. destruct (Nat.eqb_spec l1 start); [congruence|reflexivity]. }
      destruct (IH (nreset R start) (nreset M start) u (pos ++ [start])) as (q & Eq & Hq & Lq & Nq); auto.
      * rewrite E1, R2. apply andb_false_r.
      * intros v Rv. apply Lt. rewrite E1 in Rv. apply andb_true_iff in Rv as [_ Rv]. exact Rv.
      * apply (connected_ext adj (without (mem R) start)); [exact E1'|]. apply connected_without; auto.
      * intros v Rv. apply (thin_ext (without (mem R) start)); [exact E1'|]. apply Th1. rewrite E1'. exact Rv.
      * apply (leaf_ext (without (mem R) start)); [exact E1'|]. apply Lf1; [rewrite E1'; exact Ru1|exact Eu].
      * exists (start :: q). split; [rewrite Eq, <- app_assoc; reflexivity|]. split; [reflexivity|]. cbn [app]. split.
        -- apply lists_cons; [exact Rs|]. apply (lists_ext _ (mem (nreset R start))); [intros; symmetry; apply E1'|exact Lq].
        -- apply linear_cons; [exact Nq| |].
           ++ intros I. apply Lq in I. rewrite E1, Nat.eqb_refl in I. discriminate.
           ++ destruct Lq as [ND I].
              assert (H0 : nth 0 (q ++ [f; l1]) 0 = u) by (destruct q; exact Hq).
              intros b Hb. destruct b as [|b]; [rewrite H0; exact Eu|]. cbn [Nat.eqb].
              destruct (adj start (nth (S b) (q ++ [f; l1]) 0)) eqn:Ex; [|reflexivity]. exfalso.
              assert (Iv : In (nth (S b) (q ++ [f; l1]) 0) (q ++ [f; l1])) by (apply nth_In; auto).
              apply I in Iv. rewrite E1 in Iv. apply andb_true_iff in Iv as [_ Iv].
              assert (Ev := Lf _ _ Iv Ru Ex Eu).
              assert (S b = 0); [|discriminate]. apply (proj1 (NoDup_nth (q ++ [f; l1]) 0) ND); try lia; rewrite Ev, H0; reflexivity.
Qed.
End Trav.
