(** The type of a matrix is unique. *)

From Coq Require Import List Arith ZArith Bool Lia Permutation.
From Verif Require Import VecModel VecProofs RunModel RunProofs MatModel MatSpec MatProofs BitsetModel BitsetSpec
  LieTypeModel LieTypeSpec DynkinModel DynBits DynGraph DynTrav DynRead DynComps DynClass DynShape DynFin DynMain.
Import ListNotations.
Local Open Scope nat_scope.

Definition is_G (X : letter) : bool := match X with tG | tg => true | _ => false end.
Lemma lab_std X r i j : valid_rank X r -> lab_at X r = Some (i, j) -> i < r /\ j < r /\ i <> j /\ std X r i j = if is_G X then (-3)%Z else (-2)%Z.
Proof.
  intros V H. destruct X; cbn in V, H; try discriminate; injection H as <- <-; repeat split; try lia; unfold std, is_pair.
  all: rewrite ?Nat.eqb_refl; cbn [andb is_G]; rewrite (proj2 (Nat.eqb_neq _ _)) by lia; reflexivity.
Qed.

Section Uniq.
Variable n : nat.
Variable f : nat -> nat -> Z.
Variable star : list Z.
Hypothesis RD : readable n f.
Hypothesis ST : stars star n (adjf n f).
Variable Sp : Z.
Hypothesis Sp32 : is32 Sp.
Hypothesis Sn : forall u, mem Sp u = true -> u < n.
Hypothesis SCl : forall i j, mem Sp i = true -> adjf n f i j = true -> mem Sp j = true.
Variables X Y : letter.
Variables q p : list nat.
Hypothesis SX : shape f Sp X q.
Hypothesis SY : shape f Sp Y p.
Hypothesis NX : X <> tT.
Hypothesis NY : Y <> tT.

Lemma uq_len : length p = length q.
Proof. rewrite (sh_rank f Sp Sp32 X q SX), (sh_rank f Sp Sp32 Y p SY). reflexivity. Qed.
Lemma uq_idx a : a < length q -> exists b, b < length q /\ nth b p 0 = nth a q 0.
Proof.
  intros Ha. destruct (sh_idx f Sp Y p SY (nth a q 0)) as (b & Hb & E); [apply (sh_mem f Sp X q SX); exact Ha|].
  exists b. rewrite <- uq_len. auto.
Qed.
(** a fork in one is a fork in the other *)
Lemma uq_fork a : a < length q -> D star (nth a q 0) = 3 -> lined Y = false.
Proof.
  intros Ha E. destruct (uq_idx a Ha) as (b & Hb & Eb). rewrite <- Eb in E.
  destruct (deg3 n f star ST Sp Sn SCl Y p SY NY b) as [_ [(-> & _)|(-> & _)]]; try reflexivity; [rewrite uq_len; exact Hb|lia].
Qed.
Lemma uq_DE : X = tD -> Y = tE -> False.
Proof.
  intros EX EY. pose proof (sh_valid f Sp X q SX) as VX. pose proof (sh_valid f Sp Y p SY) as VY. pose proof uq_len as EL.
  rewrite EX in VX. rewrite EY in VY. cbn in VX, VY. rewrite EL in VY. set (r := length q) in *.
  destruct (uq_idx (r - 3) ltac:(lia)) as (k & Hk & Ek). destruct (uq_idx (r - 2) ltac:(lia)) as (a & Ha & Ea). destruct (uq_idx (r - 1) ltac:(lia)) as (b & Hb & Eb).
  assert (DX : forall x, x < r -> D star (nth x q 0) = if x =? r - 3 then 3 else if (x =? 0) || (x =? r - 2) || (x =? r - 1) then 1 else 2)
    by (intros x Hx; apply (deg_D n f star ST Sp Sn SCl X q SX NX x EX Hx)).
  assert (DY : forall x, x < r -> D star (nth x p 0) = if x =? 3 then 3 else if (x =? 0) || (x =? 1) || (x =? r - 1) then 1 else 2).
  { intros x Hx. rewrite (deg_E n f star ST Sp Sn SCl Y p SY NY x EY) by (rewrite EL; exact Hx). rewrite EL. reflexivity. }
  assert (K3 : k = 3).
  { pose proof (DX (r - 3) ltac:(lia)) as Q. rewrite <- Ek, (DY k Hk), Nat.eqb_refl in Q. destruct (Nat.eqb_spec k 3); [assumption|]. destruct (_ || _) in Q; discriminate. }
  assert (G : forall x y, x < r -> y < r -> y = r - 2 \/ y = r - 1 -> nth x p 0 = nth y q 0 -> x = 1).
  { intros x y Hx Hy Ey E. pose proof (DX y Hy) as Q. rewrite <- E, (DY x Hx) in Q.
    assert (A : adjf n f (nth (r - 3) q 0) (nth y q 0) = true).
    { apply (sh_adj n f Sp Sn X q SX); [lia|exact Hy|]. apply (nb_D f Sp X q SX NX); [exact EX|lia|exact Hy|lia]. }
    rewrite <- Ek, <- E in A. apply (sh_adj n f Sp Sn Y p SY) in A; [|rewrite EL; exact Hk|rewrite EL; exact Hx].
    apply (nb_E f Sp Y p SY NY) in A; [|exact EY|rewrite EL; exact Hk|rewrite EL; exact Hx]. subst k.
    destruct (Nat.eqb_spec x 3), (Nat.eqb_spec x 0), (Nat.eqb_spec x 1), (Nat.eqb_spec x (r - 1)), (Nat.eqb_spec y (r - 3)), (Nat.eqb_spec y 0), (Nat.eqb_spec y (r - 2)), (Nat.eqb_spec y (r - 1)); cbn [orb] in Q; lia. }
  assert (a = 1) by (apply (G a (r - 2)); auto; lia). assert (b = 1) by (apply (G b (r - 1)); auto; lia). subst a b.
  assert (r - 2 = r - 1); [|lia]. apply (sh_inj f Sp X q SX); [lia|lia|congruence].
Qed.
(** a label in one is a label in the other *)
Lemma uq_label i j : lab_at X (length q) = Some (i, j) ->
  exists i' j', lab_at Y (length q) = Some (i', j') /\ nth i' p 0 = nth i q 0 /\ nth j' p 0 = nth j q 0 /\ is_G X = is_G Y.
Proof.
  intros H. destruct (lab_std X _ i j (sh_valid f Sp X q SX) H) as (Hi & Hj & N & E).
  destruct (uq_idx i Hi) as (i' & Hi' & Ei). destruct (uq_idx j Hj) as (j' & Hj' & Ej).
  assert (Nn : i' <> j') by (intros ->; apply N; apply (sh_inj f Sp X q SX); auto; congruence).
  assert (F : f (nth i' p 0) (nth j' p 0) = if is_G X then (-3)%Z else (-2)%Z) by (rewrite Ei, Ej, (sh_f f Sp X q SX) by assumption; exact E).
  assert (L : lab_at Y (length q) = Some (i', j')).
  { rewrite <- uq_len. apply (no_label f Sp Y p SY NY); try (rewrite uq_len; assumption); [exact Nn|]. rewrite F. destruct (is_G X); lia. }
  exists i', j'. repeat split; auto.
  pose proof (sh_valid f Sp Y p SY) as VY. rewrite uq_len in VY.
  destruct (lab_std Y _ i' j' VY L) as (_ & _ & _ & E'). rewrite (sh_f f Sp Y p SY), uq_len, E' in F by (rewrite uq_len; assumption).
  destruct (is_G X), (is_G Y); try reflexivity; discriminate.
Qed.
End Uniq.

Section Uniq2.
Variable n : nat.
Variable f : nat -> nat -> Z.
Variable star : list Z.
Hypothesis RD : readable n f.
Hypothesis ST : stars star n (adjf n f).
Variable Sp : Z.
Hypothesis Sp32 : is32 Sp.
Hypothesis Sn : forall u, mem Sp u = true -> u < n.
Hypothesis SCl : forall i j, mem Sp i = true -> adjf n f i j = true -> mem Sp j = true.
Theorem shape_unique X Y q p : shape f Sp X q -> shape f Sp Y p -> X <> tT -> Y <> tT -> canonical (X, length q) = canonical (Y, length p).
Proof.
  intros SX SY NX NY. pose proof (uq_len f Sp Sp32 X Y q p SX SY) as EL.
  pose proof (sh_valid f Sp X q SX) as VX. pose proof (sh_valid f Sp Y p SY) as VY.
  destruct (kinds X NX) as [LX|KX], (kinds Y NY) as [LY|KY].
  - (* lines *)
    rewrite EL in *. set (r := length q) in *.
    destruct (lab_at X r) as [[i j]|] eqn:EX.
    + destruct (uq_label f Sp Sp32 X Y q p SX SY NY i j EX) as (i' & j' & EY & Ei & Ej & EG). fold r in EY.
      destruct (lab_std X r i j VX EX) as (Hi & Hj & Nij & _). destruct (lab_std Y r i' j' VY EY) as (Hi' & Hj' & _).
      pose proof (deg_line n f star ST Sp Sn SCl X q SX i LX Hi) as D1. pose proof (deg_line n f star ST Sp Sn SCl X q SX j LX Hj) as D2.
      pose proof (deg_line n f star ST Sp Sn SCl Y p SY i' LY) as D3. pose proof (deg_line n f star ST Sp Sn SCl Y p SY j' LY) as D4.
      rewrite EL in D3, D4. fold r in D1, D2, D3, D4. rewrite Ei in D3. rewrite Ej in D4.
      assert (R2 : 2 <= r) by lia.
      specialize (D1 R2). specialize (D2 R2). specialize (D3 Hi' R2). specialize (D4 Hj' R2). rewrite D1 in D3. rewrite D2 in D4. clear D1 D2.
      destruct X, Y; cbn in EX, EY, EG, VX, VY; try discriminate; try reflexivity; injection EX as <- <-; injection EY as <- <-; cbn [canonical].
      all: try (rewrite VX in *); try (rewrite VY in *); try reflexivity; try (cbn in D3, D4; discriminate).
      all: destruct (Nat.eq_dec r 2) as [E2|N2]; [rewrite E2 in *; try reflexivity; try lia|].
      all: exfalso; repeat match goal with H : context [?a =? ?b] |- _ => destruct (Nat.eqb_spec a b) end; lia.
    + destruct (lab_at Y r) as [[i j]|] eqn:EY.
      * exfalso. pose proof (uq_label f Sp Sp32 Y X p q SY SX NX i j) as Q. rewrite EL in Q. fold r in Q.
        destruct (Q EY) as (i' & j' & E & _). congruence.
      * destruct X, Y; cbn in LX, LY, EX, EY; try discriminate; reflexivity.
  - exfalso. destruct KY as [KY|KY].
    + assert (H : lined X = false); [|congruence]. rewrite KY in VY. cbn in VY.
      apply (uq_fork n f star ST Sp Sp32 Sn SCl Y X p q SY SX NX (length p - 3)); [lia|].
      rewrite (deg_D n f star ST Sp Sn SCl Y p SY NY _ KY) by lia. rewrite Nat.eqb_refl. reflexivity.
    + assert (H : lined X = false); [|congruence]. rewrite KY in VY. cbn in VY.
      apply (uq_fork n f star ST Sp Sp32 Sn SCl Y X p q SY SX NX 3); [lia|].
      rewrite (deg_E n f star ST Sp Sn SCl Y p SY NY _ KY) by lia. reflexivity.
  - exfalso. destruct KX as [KX|KX].
    + assert (H : lined Y = false); [|congruence]. rewrite KX in VX. cbn in VX.
      apply (uq_fork n f star ST Sp Sp32 Sn SCl X Y q p SX SY NY (length q - 3)); [lia|].
      rewrite (deg_D n f star ST Sp Sn SCl X q SX NX _ KX) by lia. rewrite Nat.eqb_refl. reflexivity.
    + assert (H : lined Y = false); [|congruence]. rewrite KX in VX. cbn in VX.
      apply (uq_fork n f star ST Sp Sp32 Sn SCl X Y q p SX SY NY 3); [lia|].
      rewrite (deg_E n f star ST Sp Sn SCl X q SX NX _ KX) by lia. reflexivity.
  - destruct KX as [KX|KX], KY as [KY|KY]; subst X Y.
    + rewrite EL. reflexivity.
    + exfalso. apply (uq_DE n f star ST Sp Sp32 Sn SCl tD tE q p SX SY NX NY eq_refl eq_refl).
    + exfalso. apply (uq_DE n f star ST Sp Sp32 Sn SCl tD tE p q SY SX NY NX eq_refl eq_refl).
    + rewrite EL. reflexivity.
Qed.
End Uniq2.

(** ** Matching the blocks of two decompositions *)
Lemma valid_pos X r : valid_rank X r -> 1 <= r.
Proof. destruct X; cbn; lia. Qed.
Lemma flat_perm_remove (l : list nat) L1 b L2 : Permutation (l ++ nil) (snd b) \/ Permutation l (snd b) -> forall m : list nat, Permutation (l ++ m) (bnodes (L1 ++ b :: L2)) -> Permutation m (bnodes (L1 ++ L2)).
Proof.
  intros H m P. rewrite app_nil_r in H. assert (Hl : Permutation l (snd b)) by tauto. clear H.
  unfold bnodes in *. rewrite flat_map_app in *. cbn [flat_map] in P.
  apply (Permutation_app_inv_l l). rewrite P. rewrite Hl. rewrite !app_assoc. apply Permutation_app_tail. apply Permutation_app_comm.
Qed.
Lemma match_blocks f cs : forall L, NoDup (nodes cs) -> Permutation (nodes cs) (bnodes L) -> dec f L ->
  Forall (fun c => els (c_support c) <> [] /\ exists b, In b L /\ Permutation (els (c_support c)) (snd b) /\
                   canonical (c_type c, length (c_position c)) = canonical (fst b, length (snd b))) cs ->
  Permutation (map canonical (type_of (map comp_bk cs))) (map canonical (type_of L)).
Proof.
  induction cs as [|c cs IH]; intros L ND P H F.
  - destruct L as [|b L]; [constructor|]. exfalso. destruct H as ((_ & V & _) & _). apply valid_pos in V.
    apply Permutation_nil in P. unfold bnodes in P. cbn in P. destruct (snd b); [cbn in V; lia|discriminate].
  - inversion F as [|? ? (NE & b & Ib & Pb & Cb) F']. subst. apply in_split in Ib as (L1 & L2 & ->).
    destruct (dec_split f L1 b L2 H) as (H' & _ & _).
    assert (P' : Permutation (nodes cs) (bnodes (L1 ++ L2))) by (apply (flat_perm_remove (els (c_support c)) L1 b L2); [right; exact Pb|exact P]).
    unfold nodes in ND. cbn [flat_map] in ND.
    assert (F2 : Forall (fun c => els (c_support c) <> [] /\ exists b, In b (L1 ++ L2) /\ Permutation (els (c_support c)) (snd b) /\
                   canonical (c_type c, length (c_position c)) = canonical (fst b, length (snd b))) cs).
    { rewrite Forall_forall in *. intros c' Ic'. destruct (F' c' Ic') as (NE' & b' & Ib' & Pb' & Cb'). split; [exact NE'|]. exists b'. split; [|split; assumption].
      apply in_app_iff in Ib' as [I1|[<-|I2]]; [apply in_app_iff; left; exact I1| |apply in_app_iff; right; exact I2]. exfalso.
      destruct (els (c_support c')) as [|u l] eqn:El; [contradiction|].
      assert (U1 : In u (els (c_support c))) by (rewrite Pb, <- Pb'; left; reflexivity).
      assert (U2 : In u (nodes cs)) by (apply nodes_in; exists c'; rewrite El; split; [exact Ic'|left; reflexivity]).
      revert ND U1 U2. fold (nodes cs). generalize (els (c_support c)) (nodes cs). clear. intros l m ND U1 U2.
      apply in_split in U1 as (l1 & l2 & ->). rewrite <- app_assoc in ND. cbn in ND. apply nodup_r in ND. inversion ND as [|? ? Q _]. apply Q. apply in_app_iff. right. exact U2. }
    specialize (IH (L1 ++ L2) (nodup_r _ _ ND) P' H' F2). unfold type_of in *. rewrite !map_app in *. cbn [map comp_bk fst snd]. rewrite Cb. rewrite IH. apply Permutation_middle.
Qed.
Theorem type_unique n f d lt pi : diagram_ok n f d -> valid_type lt -> semisimple lt -> straightens n f lt pi ->
  Permutation (map canonical (type_of (map comp_bk (d_comps d)))) (map canonical lt).
Proof.
  intros H V SS St. destruct (straightens_dec n f lt pi V SS St) as (Hd & E2 & E3). rewrite <- E2 at 1. clear V SS.
  pose proof (dg_comps _ _ _ H) as C. pose proof (dg_dec _ _ _ H) as DD. pose proof (dg_nodes _ _ _ H) as PN. rewrite Forall_forall in C.
  assert (Pc : Permutation (nodes (d_comps d)) (bnodes (map comp_bk (d_comps d)))).
  { revert C. generalize (d_comps d). clear. induction l as [|c l IH]; intros C; [constructor|]. unfold nodes, bnodes in *. cbn [map flat_map comp_bk snd].
    apply Permutation_app; [|apply IH; intros x I; apply C; right; exact I].
    destruct (C c (or_introl eq_refl)) as ((W & _) & ND & Ls). apply NoDup_Permutation; [apply els_nodup|exact ND|]. intros x. rewrite (els_in _ x W). symmetry. apply Ls. }
  assert (Pseq : Permutation (bnodes (blocks lt pi)) (seq 0 n)) by (rewrite E3; apply St).
  apply (match_blocks f); auto.
  - apply (Permutation_NoDup (l := seq 0 n)); [rewrite Pc, PN; reflexivity|apply seq_NoDup].
  - rewrite Pc, PN. symmetry. exact Pseq.
  - rewrite Forall_forall. intros c Ic. destruct (C c Ic) as ((W & (u & Mu) & Cn & Cl) & Ls).
    assert (Lt : forall u, mem (c_support c) u = true -> u < n).
    { intros v Mv. assert (I : In v (nodes (d_comps d))) by (apply nodes_in; exists c; split; [exact Ic|exact (proj2 (els_in _ v W) Mv)]).
      rewrite Pc, PN in I. apply in_seq in I. lia. }
    assert (Cl' : forall i j, mem (c_support c) i = true -> adjf n f i j = true -> mem (c_support c) j = true).
    { intros i j M A. apply (Cl i j M); [|exact A]. apply adjf_lt in A. apply A. }
    split.
    + intros E. apply (els_in _ u W) in Mu. rewrite E in Mu. destruct Mu.
    + destruct (comp_block n f (blocks lt pi) (c_support c) Hd Pseq W Lt Cn Cl' u Mu) as (b & Ib & _ & Sh & NT).
      exists b. split; [exact Ib|]. split.
      * destruct Sh as (_ & (ND & Q) & _). apply NoDup_Permutation; [apply els_nodup|exact ND|]. intros x. rewrite (els_in _ x W). symmetry. apply Q.
      * assert (B : bk_ok f (comp_bk c)) by (apply (dec_in f _ _ DD); apply in_map; exact Ic). destruct B as (NT' & V' & E').
        apply (shape_unique n f (d_star d) (dg_star _ _ _ H) (c_support c) W Lt Cl'); auto.
        split; [exact V'|]. split; [exact Ls|exact E'].
Qed.
