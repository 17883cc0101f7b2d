(** A generalised Cartan matrix of size at most 32 without a nonnegative vector whose pairings are all at most zero is of finite
    type. *)

From Coq Require Import List Arith ZArith Bool Lia Permutation.
From Verif Require Import MatSpec MatRing MatLin LieTypeModel LieTypeSpec DynComps DynFin RootSpec RootFin RootForm DatMath ClsTable.
Import ListNotations.
Local Open Scope Z_scope.

Definition lsum (q : list nat) (g : nat -> Z) : Z := fold_right Z.add 0 (map g q).
Lemma lsum_app q p g : lsum (q ++ p) g = lsum q g + lsum p g.
Proof. unfold lsum. induction q as [|c q IH]; cbn [app map fold_right]; [lia|]. rewrite IH. lia. Qed.
Lemma lsum_perm q p g : Permutation q p -> lsum q g = lsum p g.
Proof. unfold lsum. induction 1; cbn [map fold_right]; lia. Qed.
Lemma lsum_ext q g h : (forall j, In j q -> g j = h j) -> lsum q g = lsum q h.
Proof. unfold lsum. intros H. f_equal. apply map_ext_in. exact H. Qed.
Lemma lsum_zero q g : (forall j, In j q -> g j = 0) -> lsum q g = 0.
Proof. unfold lsum. induction q as [|c q IH]; intros H; cbn [map fold_right]; [reflexivity|]. rewrite IH by (intros; apply H; right; assumption). rewrite (H c) by (left; reflexivity). reflexivity. Qed.
Lemma lsum_neg q g : (forall j, In j q -> g j <= 0) -> lsum q g <= 0.
Proof. unfold lsum. induction q as [|c q IH]; intros H; cbn [map fold_right]; [lia|]. specialize (IH (fun j I => H j (or_intror I))). specialize (H c (or_introl eq_refl)). lia. Qed.
Lemma lsum_index q g : lsum q g = lsum (seq 0 (length q)) (fun k => g (nth k q 0%nat)).
Proof.
  induction q as [|c q IH]; [reflexivity|]. cbn [length seq]. unfold lsum in *. cbn [map fold_right nth]. rewrite <- seq_shift, map_map. cbn [nth]. rewrite IH. reflexivity.
Qed.

Section Class.
Variable f : nat -> nat -> Z.
Definition cl (q : list nat) : Prop :=
  (forall i, In i q -> f i i = 2) /\ (forall i j, In i q -> In j q -> i <> j -> f i j <= 0) /\ (forall i j, In i q -> In j q -> f i j = 0 -> f j i = 0).
(** no nonnegative vector with pairings at most zero *)
Definition nb (q : list nat) : Prop :=
  forall x : nat -> Z, (forall i, In i q -> 0 <= x i) -> (exists i, In i q /\ 0 < x i) -> exists i, In i q /\ 0 < lsum q (fun j => x j * f j i).

Lemma cl_incl p q : incl p q -> cl q -> cl p.
Proof. intros I (A & B & C). split; [|split]; intros; [apply A|apply B|apply C]; auto. Qed.
Lemma nb_perm p q : Permutation p q -> nb q -> nb p.
Proof.
  intros P H x X1 (i & Ii & Xi). destruct (H x) as (j & Ij & S).
  - intros k Ik. apply X1. rewrite P. exact Ik.
  - exists i. split; [rewrite <- P; exact Ii|exact Xi].
  - exists j. split; [rewrite P; exact Ij|]. rewrite (lsum_perm p q _ P). exact S.
Qed.
Lemma nb_app p q : NoDup (p ++ q) -> cl (p ++ q) -> nb (p ++ q) -> nb p.
Proof.
  intros ND (_ & C2 & _) H x X1 (i & Ii & Xi).
  assert (dis : forall k, In k q -> ~ In k p).
  { intros k Iq Ip. clear -ND Iq Ip. induction p as [|c p IH]; [destruct Ip|]. cbn in ND. inversion ND as [|? ? N1 N2]. subst. destruct Ip as [->|Ip]; [|auto]. apply N1, in_app_iff. auto. }
  set (y := fun k => if in_dec Nat.eq_dec k p then x k else 0).
  assert (Yp : forall k, In k p -> y k = x k) by (intros k Ik; unfold y; destruct (in_dec Nat.eq_dec k p); [reflexivity|contradiction]).
  assert (Yq : forall k, In k q -> y k = 0) by (intros k Ik; unfold y; destruct (in_dec Nat.eq_dec k p); [exfalso; exact (dis k Ik i0)|reflexivity]).
  destruct (H y) as (j & Ij & S).
  - intros k Ik. apply in_app_iff in Ik as [Ik|Ik]; [rewrite Yp by exact Ik; auto|rewrite Yq by exact Ik; lia].
  - exists i. split; [apply in_app_iff; auto|]. rewrite Yp by exact Ii. exact Xi.
  - rewrite lsum_app in S. rewrite (lsum_zero q) in S by (intros k Ik; rewrite Yq by exact Ik; ring).
    rewrite (lsum_ext p _ (fun k => x k * f k j)) in S by (intros k Ik; rewrite Yp by exact Ik; ring). rewrite Z.add_0_r in S.
    exists j. split; [|exact S]. apply in_app_iff in Ij as [Ij|Ij]; [exact Ij|]. exfalso.
    assert (lsum p (fun k => x k * f k j) <= 0); [|lia]. apply lsum_neg. intros k Ik.
    assert (f k j <= 0); [|specialize (X1 k Ik); nia]. apply C2; [apply in_app_iff; auto|apply in_app_iff; auto|]. intros ->. exact (dis j Ij Ik).
Qed.
Lemma perm_rest (p : list nat) : forall q : list nat, NoDup p -> NoDup q -> incl p q -> exists r, Permutation (p ++ r) q.
Proof.
  induction p as [|c p IH]; intros q N1 N2 I; [exists q; reflexivity|]. inversion N1 as [|? ? Q1 Q2]. subst.
  destruct (in_split c q (I c (or_introl eq_refl))) as (l1 & l2 & ->). pose proof (NoDup_remove _ _ _ N2) as [N3 N4].
  destruct (IH (l1 ++ l2) Q2 N3) as (r & P).
  - intros d Id. pose proof (I d (or_intror Id)) as J. apply in_app_iff in J. apply in_app_iff. destruct J as [J|[J|J]]; auto. subst d. contradiction.
  - exists r. cbn [app]. rewrite P. apply Permutation_middle.
Qed.
Lemma nb_incl p q : NoDup p -> NoDup q -> incl p q -> cl q -> nb q -> nb p.
Proof.
  intros N1 N2 I C H. destruct (perm_rest p q N1 N2 I) as (r & P). apply (nb_app p r).
  - apply (Permutation_NoDup (l := q)); [symmetry; exact P|exact N2].
  - apply (cl_incl _ q); [|exact C]. intros k Ik. rewrite <- P. exact Ik.
  - apply (nb_perm _ q P H).
Qed.
(** a node with at most one neighbour *)
Lemma leaf q : q <> [] -> NoDup q -> cl q -> nb q -> exists v r, Permutation (v :: r) q /\ -1 <= lsum r (fun j => f j v).
Proof.
  intros N ND (C1 & _) H. destruct (H (fun _ => 1)) as (v & Iv & S).
  - intros. lia.
  - destruct q as [|c q]; [congruence|]. exists c. split; [left; reflexivity|lia].
  - apply in_split in Iv as (l1 & l2 & ->). exists v, (l1 ++ l2). split; [apply Permutation_middle|].
    rewrite (lsum_perm _ (v :: l1 ++ l2)) in S by (symmetry; apply Permutation_middle). unfold lsum in S. cbn [map fold_right] in S.
    rewrite (C1 v) in S by (apply in_app_iff; right; left; reflexivity). unfold lsum. erewrite map_ext in S; [|intros j; apply Z.mul_1_l]. lia.
Qed.
Lemma one_neighbour r v : NoDup r -> (forall j, In j r -> f j v <= 0) -> -1 <= lsum r (fun j => f j v) ->
  (forall j, In j r -> f j v = 0) \/ exists u, In u r /\ f u v = -1 /\ forall j, In j r -> j <> u -> f j v = 0.
Proof.
  induction r as [|c r IH]; intros ND Le S; [left; intros j []|]. inversion ND as [|? ? Q1 Q2]. subst.
  unfold lsum in S. cbn [map fold_right] in S. fold (lsum r (fun j => f j v)) in S.
  pose proof (Le c (or_introl eq_refl)) as Lc. pose proof (lsum_neg r (fun j => f j v) (fun j I => Le j (or_intror I))) as Lr.
  destruct (IH Q2 (fun j I => Le j (or_intror I)) ltac:(lia)) as [Z0|(u & Iu & Fu & Z0)].
  - assert (f c v = 0 \/ f c v = -1) as [E|E] by lia.
    + left. intros j [<-|I]; auto.
    + right. exists c. split; [left; reflexivity|]. split; [exact E|]. intros j [<-|I] Nj; [congruence|auto].
  - assert (E : lsum r (fun j => f j v) <= -1).
    { apply in_split in Iu as (l1 & l2 & ->). rewrite (lsum_perm _ (u :: l1 ++ l2)) by (symmetry; apply Permutation_middle). unfold lsum. cbn [map fold_right]. rewrite Fu.
      fold (lsum (l1 ++ l2) (fun j => f j v)). enough (lsum (l1 ++ l2) (fun j => f j v) <= 0) by lia. apply lsum_neg. intros j Ij. apply Le. right. apply in_app_iff in Ij. apply in_app_iff. cbn. tauto. }
    right. exists u. split; [right; exact Iu|]. split; [exact Fu|]. intros j [<-|I] Nj; [lia|auto].
Qed.
Lemma dec_app L M : dec f L -> dec f M -> apart f (bnodes L) (bnodes M) -> dec f (L ++ M).
Proof.
  induction L as [|b L IH]; intros HL HM A; [exact HM|]. destruct HL as (H1 & H2 & H3). cbn [app dec]. split; [exact H1|].
  split.
  - intros x y Ix Iy. unfold bnodes in *. rewrite flat_map_app in Iy. apply in_app_iff in Iy as [Iy|Iy]; [apply H2; assumption|]. apply A; [|exact Iy]. cbn. apply in_app_iff. left. exact Ix.
  - apply IH; auto. intros x y Ix Iy. apply A; [|exact Iy]. unfold bnodes in *. cbn. apply in_app_iff. right. exact Ix.
Qed.
Lemma dec_image (h : nat -> nat -> Z) (g : nat -> nat) L : dec h L -> (forall i j, In i (bnodes L) -> In j (bnodes L) -> f (g i) (g j) = h i j) ->
  dec f (map (fun b => (fst b, map g (snd b))) L) /\ bnodes (map (fun b => (fst b, map g (snd b))) L) = map g (bnodes L).
Proof.
  induction L as [|[X p] L IH]; intros HL E; [split; constructor|]. destruct HL as ((H1 & H2 & H3) & H4 & H5). cbn [fst snd] in *. unfold bnodes in *. cbn [flat_map snd] in *.
  destruct (IH H5) as (I1 & I2); [intros; apply E; apply in_app_iff; auto|]. cbn [map dec fst snd flat_map]. rewrite I2. split; [|rewrite map_app; reflexivity].
  split; [|split; [|exact I1]].
  - unfold bk_ok. cbn [fst snd]. rewrite map_length. split; [exact H1|]. split; [exact H2|]. intros i j Hi Hj.
    rewrite (nth_indep _ 0%nat (g 0%nat)), (nth_indep (map g p) 0%nat (g 0%nat) (n := j)) by (rewrite map_length; assumption). rewrite !map_nth.
    rewrite E by (apply in_app_iff; left; apply nth_In; assumption). apply H3; assumption.
  - unfold bnodes. rewrite I2. intros x y Ix Iy. apply in_map_iff in Ix as (i & <- & Ii). apply in_map_iff in Iy as (j & <- & Ij).
    rewrite !E by (apply in_app_iff; auto). apply H4; assumption.
Qed.
Fixpoint pos (l : list nat) (x : nat) : nat := match l with [] => 0 | c :: r => if Nat.eqb c x then 0 else S (pos r x) end.
Lemma pos_nth l : NoDup l -> forall k, (k < length l)%nat -> pos l (nth k l 0%nat) = k.
Proof.
  induction l as [|c l IH]; intros ND k Hk; [cbn in Hk; lia|]. inversion ND as [|? ? Q1 Q2]. subst. destruct k as [|k]; cbn [nth pos]; [rewrite Nat.eqb_refl; reflexivity|].
  cbn [length] in Hk. destruct (Nat.eqb_spec c (nth k l 0%nat)) as [E|E]; [|rewrite IH by (auto; lia); reflexivity]. exfalso. apply Q1. rewrite E. apply nth_In. lia.
Qed.
Lemma bond_three q u v : NoDup q -> cl q -> nb q -> In u q -> In v q -> u <> v -> f u v = -1 -> -3 <= f v u.
Proof.
  intros ND C H Iu Iv N E. destruct (Z_le_gt_dec (-3) (f v u)) as [|G]; [assumption|]. exfalso.
  assert (N2 : NoDup [u; v]) by (constructor; [intros [Q|[]]; congruence|constructor; [intros []|constructor]]).
  assert (I2 : incl [u; v] q) by (intros k [<-|[<-|[]]]; assumption).
  pose proof (nb_incl [u; v] q N2 ND I2 C H) as B. destruct (B (fun k => if Nat.eqb k u then 2 else 1)) as (i & Ii & S).
  - intros i _. destruct (Nat.eqb i u); lia.
  - exists u. split; [left; reflexivity|]. rewrite Nat.eqb_refl. lia.
  - unfold lsum in S. cbn [map fold_right] in S. rewrite Nat.eqb_refl, (proj2 (Nat.eqb_neq v u)) in S by congruence. destruct C as (C1 & _).
    destruct Ii as [<-|[<-|[]]]; [rewrite (C1 u Iu) in S|rewrite (C1 v Iv), E in S]; lia.
Qed.
Theorem class : forall m q, length q = m -> (m <= 32)%nat -> NoDup q -> cl q -> nb q -> exists L, dec f L /\ Permutation (bnodes L) q.
Proof.
  induction m as [|m IH]; intros q Lq L32 ND C H.
  { destruct q; [|discriminate]. exists []. split; constructor. }
  destruct (leaf q ltac:(intros ->; discriminate) ND C H) as (v & r & P & Sm).
  assert (NDv : NoDup (v :: r)) by (apply (Permutation_NoDup (l := q)); [symmetry; exact P|exact ND]). inversion NDv as [|? ? Nv NDr]. subst.
  assert (Iv : In v q) by (rewrite <- P; left; reflexivity). assert (Ir : incl r q) by (intros k Ik; rewrite <- P; right; exact Ik).
  assert (Lr : length r = m) by (apply Permutation_length in P; cbn in P; lia).
  pose proof C as (C1 & C2 & C3).
  destruct (IH r Lr ltac:(lia) NDr (cl_incl _ _ Ir C) (nb_incl r q NDr ND Ir C H)) as (L & D & PL).
  destruct (one_neighbour r v NDr) as [Z0|(u & Iu & Fu & Z0)]; [|exact Sm| |].
  { intros j Ij. apply C2; auto. intros ->. contradiction. }
  - exists ((tA, [v]) :: L). split; [|cbn; rewrite PL; exact P]. cbn [dec snd]. split; [|split; [|exact D]].
    + split; [discriminate|]. split; [cbn; lia|]. cbn [snd length fst]. intros [|i] [|j] Hi Hj; try lia. cbn [nth]. rewrite C1 by exact Iv. reflexivity.
    + intros x y [<-|[]] Iy. rewrite PL in Iy. specialize (Z0 y Iy). split; [|exact Z0]. apply C3; auto.
  - assert (Iub : In u (bnodes L)) by (rewrite PL; exact Iu). apply in_flat_map in Iub as ([X p] & Ib & Iup). cbn [snd] in Iup.
    apply in_split in Ib as (L1 & L2 & ->). destruct (dec_split f L1 (X, p) L2 D) as (D12 & (NX & VX & EX) & AX). cbn [fst snd] in *.
    destruct (In_nth _ _ 0%nat Iup) as (k & Hk & Ek).
    assert (PB : Permutation (p ++ bnodes (L1 ++ L2)) r).
    { rewrite <- PL. unfold bnodes. rewrite !flat_map_app. cbn [flat_map snd]. rewrite !app_assoc. apply Permutation_app_tail, Permutation_app_comm. }
    assert (Ip : incl p r) by (intros x Ix; rewrite <- PB; apply in_app_iff; auto).
    assert (NDp : NoDup (p ++ [v])).
    { apply (Permutation_NoDup (l := v :: p)); [apply Permutation_cons_append|]. constructor; [intros Q; apply Nv, Ip, Q|].
      pose proof (Permutation_NoDup (Permutation_sym PB) NDr) as Q. exact (nodup_l _ _ Q). }
    assert (Lp : (length p <= 31)%nat).
    { pose proof (Permutation_length PB) as Q. rewrite app_length in Q. lia. }
    set (a := - f u v). set (b := - f v u).
    assert (Nuv : u <> v) by (intros ->; contradiction).
    assert (B0 : f v u <> 0) by (intros Q; apply C3 in Q; auto; lia).
    assert (B1 : f v u <= 0) by (apply C2; auto). pose proof (bond_three q u v ND C H (Ir u Iu) Iv Nuv Fu) as B3.
    set (l := p ++ [v]). assert (Ll : length l = S (length p)) by (unfold l; rewrite app_length; cbn; lia).
    assert (nl : forall i, (i < length p)%nat -> nth i l 0%nat = nth i p 0%nat) by (intros i Hi; apply app_nth1; exact Hi).
    assert (nv : nth (length p) l 0%nat = v) by (unfold l; rewrite app_nth2 by lia; rewrite Nat.sub_diag; reflexivity).
    assert (Zp : forall i, (i < length p)%nat -> i <> k -> f (nth i p 0%nat) v = 0).
    { intros i Hi Ni. apply Z0; [apply Ip, nth_In; exact Hi|]. rewrite <- Ek. intros Q. apply Ni. apply (proj1 (NoDup_nth p 0%nat) (nodup_l _ _ NDp)); assumption. }
    assert (EE : forall i j, (i < S (length p))%nat -> (j < S (length p))%nat -> f (nth i l 0%nat) (nth j l 0%nat) = ext X (length p) k a b i j).
    { intros i j Hi Hj. unfold ext. destruct (Nat.eqb_spec i (length p)) as [->|Ni], (Nat.eqb_spec j (length p)) as [->|Nj].
      - rewrite nv. apply C1. exact Iv.
      - rewrite nv, nl by lia. destruct (Nat.eqb_spec j k) as [->|Nk]; [rewrite Ek; unfold b; lia|]. apply C3; [|exact Iv|apply Zp; lia]. apply Ir, Ip, nth_In. lia.
      - rewrite nv, nl by lia. destruct (Nat.eqb_spec i k) as [->|Nk]; [rewrite Ek; unfold a; lia|]. apply Zp; lia.
      - rewrite !nl by lia. apply EX; lia. }
    assert (Il : incl l q) by (intros x Ix; apply in_app_iff in Ix as [Ix|[<-|[]]]; [apply Ir, Ip, Ix|exact Iv]).
    destruct (table X (length p) k a b NX VX Lp Hk) as [(lt & pi & V & SS & St)|(w & Lw & W0 & W1 & W2)]; [unfold a; lia|unfold b; lia|unfold a, b; lia| |].
    + destruct (straightens_dec _ _ _ _ V SS St) as (D1 & _ & E1). pose proof St as (_ & Pp & _).
      assert (BN : forall i, In i (bnodes (blocks lt pi)) -> (i < S (length p))%nat) by (intros i Ii; rewrite E1, Pp in Ii; apply in_seq in Ii; lia).
      destruct (dec_image (ext X (length p) k a b) (fun i => nth i l 0%nat) (blocks lt pi) D1) as (D2 & E2).
      { intros i j Ii Ij. apply EE; apply BN; assumption. }
      rewrite E1 in E2. set (M := map (fun c => (fst c, map (fun i => nth i l 0%nat) (snd c))) (blocks lt pi)) in *.
      assert (PM : Permutation (bnodes M) l).
      { rewrite E2. rewrite Pp. rewrite <- Ll. replace (map (fun i => nth i l 0%nat) (seq 0 (length l))) with l; [reflexivity|].
        apply (nth_ext _ _ 0%nat 0%nat); [rewrite map_length, seq_length; reflexivity|]. intros i Hi.
        rewrite (nth_indep (map _ _) 0%nat (nth 0%nat l 0%nat)) by (rewrite map_length, seq_length; exact Hi). rewrite (map_nth (fun i => nth i l 0%nat)), seq_nth by exact Hi. reflexivity. }
      exists (M ++ L1 ++ L2). split.
      * apply dec_app; [exact D2|exact D12|]. intros x y Ix Iy. rewrite PM in Ix. apply in_app_iff in Ix as [Ix|[<-|[]]]; [apply AX; assumption|].
        assert (Iyr : In y r) by (rewrite <- PB; apply in_app_iff; auto).
        assert (Q : f y v = 0).
        { apply Z0; [exact Iyr|]. intros ->. pose proof (Permutation_NoDup (Permutation_sym PB) NDr) as Q. clear -Q Iup Iy.
          induction p as [|c p IH]; [destruct Iup|]. cbn [app] in Q. inversion Q as [|? ? Q1 Q2]. subst. destruct Iup as [->|I]; [apply Q1, in_app_iff; auto|auto]. }
        split; [apply C3; auto|exact Q].
      * replace (bnodes (M ++ L1 ++ L2)) with (bnodes M ++ bnodes (L1 ++ L2)) by (unfold bnodes; rewrite (flat_map_app _ M); reflexivity).
        rewrite PM. unfold l. rewrite <- app_assoc. cbn [app]. rewrite <- Permutation_middle, PB. exact P.
    + exfalso. pose proof (nb_incl l q NDp ND Il C H) as B. destruct (B (fun x => nth (pos l x) w 0)) as (i & Ii & Si).
      * intros i _. apply W0.
      * exists v. split; [apply in_app_iff; right; left; reflexivity|]. rewrite <- nv, pos_nth by (try exact NDp; lia). exact W1.
      * destruct (In_nth _ _ 0%nat Ii) as (i0 & Hi0 & <-). rewrite lsum_index in Si. rewrite Ll in *. specialize (W2 i0 Hi0).
        rewrite (lsum_ext _ _ (fun j => nth j w 0 * ext X (length p) k a b j i0)) in Si; [unfold lsum in Si; lia|].
        intros j Ij. apply in_seq in Ij. rewrite pos_nth by (try exact NDp; lia). rewrite EE by lia. reflexivity.
Qed.
End Class.

Lemma lsum_zsum n g : lsum (seq 0 n) g = zsum n g.
Proof.
  unfold zsum. induction n as [|n IH]; [reflexivity|]. rewrite seq_S, lsum_app, IH. cbn [fsum Nat.add]. unfold lsum. cbn [map fold_right]. lia.
Qed.
Theorem class_finite n f : (n <= 32)%nat -> Cartan_like n f -> nb f (seq 0 n) -> finite_type n f.
Proof.
  intros N (C1 & C2 & C3) H. destruct (class f n (seq 0 n)) as (L & D & P); [apply seq_length|exact N|apply seq_NoDup| |exact H|].
  - split; [|split].
    + intros i Ii. apply in_seq in Ii. apply C1. lia.
    + intros i j Ii Ij. apply in_seq in Ii, Ij. apply C2; lia.
    + intros i j Ii Ij. apply in_seq in Ii, Ij. apply C3; lia.
  - exists (type_of L), (bnodes L). destruct (dec_straightens n f L D P) as (A & B & E). split; [exact A|]. split; [exact B|exact E].
Qed.
Theorem formed_finite n f d : (n <= 32)%nat -> Cartan_like n f -> formed n f d -> finite_type n f.
Proof.
  intros N C (P & Sy & Q). apply class_finite; [exact N|exact C|]. intros x X0 (i & Ii & Xi).
  destruct (existsb (fun i => 0 <? lsum (seq 0 n) (fun j => x j * f j i)) (seq 0 n)) eqn:E.
  { apply existsb_exists in E as (j & Ij & Ej). exists j. split; [exact Ij|]. apply Z.ltb_lt. exact Ej. }
  exfalso. assert (K : forall j, (j < n)%nat -> zsum n (fun k => x k * f k j) <= 0).
  { intros j Hj. destruct (Z_le_gt_dec (zsum n (fun k => x k * f k j)) 0) as [|G]; [assumption|].
    assert (existsb (fun i => 0 <? lsum (seq 0 n) (fun j => x j * f j i)) (seq 0 n) = true); [|congruence].
    apply existsb_exists. exists j. split; [apply in_seq; lia|]. apply Z.ltb_lt. rewrite lsum_zsum. lia. }
  apply in_seq in Ii. assert (Xn : exists i, (i < n)%nat /\ x i <> 0) by (exists i; lia). specialize (Q x Xn).
  assert (qform n (fun i j => d i * f j i) x <= 0); [|lia]. unfold qform.
  rewrite <- lsum_zsum. apply lsum_neg. intros j Ij. pose proof (X0 j Ij) as Xj. apply in_seq in Ij.
  rewrite (zsum_ext n _ (fun k => (d j * x j) * (x k * f k j))) by (intros; lia). rewrite zsum_mul_l. pose proof (K j ltac:(lia)) as Kj. pose proof (P j ltac:(lia)) as Pj.
  assert (0 <= d j * x j) by nia. nia.
Qed.
Theorem definite_finite n f : (n <= 32)%nat -> Cartan_like n f -> positive_definite n f -> finite_type n f.
Proof.
  intros N C (d & P & Sy & Q). apply (finite_flip n (flip f)). apply (formed_finite n (flip f) d); [exact N|apply flip_Cartan; exact C|].
  split; [exact P|]. split; [exact Sy|exact Q].
Qed.
(** a matrix of finite type has no such vector *)
Theorem finite_nb n f : finite_type n f -> nb f (seq 0 n).
Proof.
  intros F x X0 (i & Ii & Xi). destruct (finite_good n f F) as (_ & (d & P & Sy & Q) & _).
  destruct (existsb (fun i => 0 <? lsum (seq 0 n) (fun j => x j * f j i)) (seq 0 n)) eqn:E.
  { apply existsb_exists in E as (j & Ij & Ej). exists j. split; [exact Ij|]. apply Z.ltb_lt. exact Ej. }
  exfalso. apply in_seq in Ii. assert (Xn : exists i, (i < n)%nat /\ x i <> 0) by (exists i; lia). specialize (Q x Xn).
  assert (qform n (fun i j => d i * f j i) x <= 0); [|lia]. unfold qform.
  rewrite <- lsum_zsum. apply lsum_neg. intros j Ij. pose proof (X0 j Ij) as Xj.
  assert (Kj : zsum n (fun k => x k * f k j) <= 0).
  { destruct (Z_le_gt_dec (zsum n (fun k => x k * f k j)) 0) as [|G]; [assumption|].
    assert (existsb (fun i => 0 <? lsum (seq 0 n) (fun j => x j * f j i)) (seq 0 n) = true); [|congruence].
    apply existsb_exists. exists j. split; [exact Ij|]. apply Z.ltb_lt. rewrite lsum_zsum. lia. }
  apply in_seq in Ij.
  rewrite (zsum_ext n _ (fun k => (d j * x j) * (x k * f k j))) by (intros; lia). rewrite zsum_mul_l. pose proof (P j ltac:(lia)) as Pj.
  assert (0 <= d j * x j) by nia. nia.
Qed.
