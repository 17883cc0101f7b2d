(** The connected components found by the classification. *)

From Coq Require Import List Arith ZArith Bool Lia Permutation.
From Verif Require Import VecModel VecProofs RunModel RunProofs MatModel MatSpec BitsetModel BitsetSpec
  LieTypeModel LieTypeSpec DynkinModel DynBits DynGraph DynTrav.
Import ListNotations.
Local Open Scope nat_scope.

Definition nodes (cs : list comp) : list nat := flat_map (fun c => els (c_support c)) cs.
Lemma nodes_app a b : nodes (a ++ b) = nodes a ++ nodes b.
Proof. apply flat_map_app. Qed.
Lemma nodes_in cs u : In u (nodes cs) <-> exists c, In c cs /\ In u (els (c_support c)).
Proof. apply in_flat_map. Qed.

Lemma nodup_l (l m : list nat) : NoDup (l ++ m) -> NoDup l.
Proof.
  induction l as [|x l IH]; cbn [app]; intros N; [constructor|]. inversion N as [|? ? Hx Hl]. constructor; [|auto].
  intros I. apply Hx. apply in_app_iff. auto.
Qed.
Lemma nodup_r (l m : list nat) : NoDup (l ++ m) -> NoDup m.
Proof. induction l as [|x l IH]; cbn [app]; intros N; [exact N|]. inversion N; auto. Qed.
Lemma els_or a b : is32 a -> is32 b -> NoDup (els a ++ els b) -> Permutation (els (or1 a b)) (els a ++ els b).
Proof.
  intros Ha Hb N. destruct (or_ok a b Ha Hb) as [W E]. apply NoDup_Permutation; [apply els_nodup|exact N|].
  intros u. rewrite in_app_iff, !els_in, E by auto. apply orb_true_iff.
Qed.
Lemma els_set a i b : is32 a -> is32 b -> mem a i = false -> (forall j, mem b j = (j =? i) || mem a j) ->
  Permutation (els b) (i :: els a).
Proof.
  intros Ha Hb N E. apply NoDup_Permutation; [apply els_nodup| |].
  - constructor; [|apply els_nodup]. rewrite els_in by auto. congruence.
  - intros u. cbn [In]. rewrite !els_in, E by auto. rewrite orb_true_iff, Nat.eqb_eq. intuition congruence.
Qed.

Definition meets (st : Z) (c : comp) : bool := any1 (and1 (c_support c) st).
Lemma meets_ok st c : is32 st -> is32 (c_support c) -> meets st c = true <-> exists u, mem (c_support c) u = true /\ mem st u = true.
Proof.
  intros Hs Hc. destruct (and_ok (c_support c) st Hc Hs) as [W E]. unfold meets. rewrite any_iff by auto.
  split; intros [u H]; exists u; [rewrite E in H; apply andb_true_iff in H|rewrite E; apply andb_true_iff]; exact H.
Qed.

Lemma absorb_ok st : is32 st -> forall cs sup, is32 sup -> Forall (fun c => is32 (c_support c)) cs ->
  NoDup (els sup ++ nodes cs) ->
  let r := absorb st sup cs in
  is32 (fst r) /\ snd r = filter (fun c => negb (meets st c)) cs /\
  Permutation (els (fst r) ++ nodes (snd r)) (els sup ++ nodes cs) /\
  (forall u, mem (fst r) u = true <-> mem sup u = true \/ exists c, In c cs /\ meets st c = true /\ mem (c_support c) u = true).
Proof.
  intros Hst. induction cs as [|c cs IH]; intros sup Hs F N r; subst r.
  - cbn. split; [exact Hs|]. split; [reflexivity|]. split; [apply Permutation_refl|].
    intros u. split; [auto|]. intros [H|(c & [] & _)]. exact H.
  - apply Forall_cons_iff in F as [Fc F]. cbn [absorb]. fold (meets st c). unfold meets at 1. fold (meets st c).
    cbn [nodes flat_map] in N. fold (nodes cs) in N. destruct (meets st c) eqn:M.
    + assert (N1 : NoDup (els sup ++ els (c_support c))).
      { rewrite app_assoc in N. exact (nodup_l _ _ N). }
      pose proof (els_or sup (c_support c) Hs Fc N1) as P.
      destruct (or_ok sup (c_support c) Hs Fc) as [W E].
      destruct (IH (or1 sup (c_support c)) W F) as (W1 & E1 & P1 & M1).
      { eapply Permutation_NoDup; [|rewrite app_assoc in N; exact N]. apply Permutation_app_tail. symmetry. exact P. }
      split; [exact W1|]. split; [cbn [filter]; rewrite M; cbn [negb]; exact E1|]. split.
      * cbn [nodes flat_map]. fold (nodes cs). rewrite app_assoc. rewrite P1. apply Permutation_app_tail. exact P.
      * intros u. rewrite M1, E, orb_true_iff. split.
        -- intros [[H|H]|(d & I & D)]; [auto|right; exists c; split; [left; auto|auto]|right; exists d; split; [right; auto|auto]].
        -- intros [H|(d & [<-|I] & D & U)]; [auto|auto|right; exists d; auto].
    + destruct (IH sup Hs F) as (W1 & E1 & P1 & M1).
      { apply (nodup_r (els (c_support c))). eapply Permutation_NoDup; [|exact N].
        rewrite !app_assoc. apply Permutation_app_tail. apply Permutation_app_comm. }
      destruct (absorb st sup cs) as [sup1 rest1] eqn:A. cbn [fst snd] in *.
      split; [exact W1|]. split; [cbn [filter]; rewrite M; cbn [negb]; rewrite E1; reflexivity|]. split.
      * cbn [nodes flat_map]. fold (nodes rest1) (nodes cs). rewrite !app_assoc.
        rewrite (Permutation_app_comm (els sup1)). rewrite (Permutation_app_comm (els sup)). rewrite <- !app_assoc. apply Permutation_app_head. exact P1.
      * intros u. rewrite M1. split.
        -- intros [H|(d & I & D)]; [auto|right; exists d; split; [right; auto|auto]].
        -- intros [H|(d & [<-|I] & D & U)]; [auto|congruence|right; exists d; auto].
Qed.

Lemma join_ok i st : is32 st -> i < 32 -> forall cs, Forall (fun c => is32 (c_support c)) cs ->
  NoDup (i :: nodes cs) -> (exists c, In c cs /\ meets st c = true) ->
  exists pre c rest c1,
    cs = pre ++ c :: rest /\ Forall (fun c => meets st c = false) pre /\ meets st c = true /\
    join i st cs = Ok (pre ++ c1 :: filter (fun c => negb (meets st c)) rest) /\
    is32 (c_support c1) /\
    Permutation (nodes (pre ++ c1 :: filter (fun c => negb (meets st c)) rest)) (i :: nodes cs) /\
    (forall u, mem (c_support c1) u = true <-> u = i \/ exists c, In c cs /\ meets st c = true /\ mem (c_support c) u = true).
Proof.
  intros Hst Hi. induction cs as [|c cs IH]; intros F N (d & Id & Md); [destruct Id|].
  apply Forall_cons_iff in F as [Fc F]. cbn [join]. rewrite none_any. fold (meets st c). destruct (meets st c) eqn:M; cbn [negb].
  - cbn [nodes flat_map] in N. fold (nodes cs) in N.
    assert (Ni : mem (c_support c) i = false).
    { destruct (mem (c_support c) i) eqn:E; [|reflexivity]. exfalso. inversion N as [|? ? H _]. apply H. apply in_app_iff. left. apply els_in; auto. }
    destruct (nset_ok (c_support c) i Fc Hi) as (b & Eb & Wb & Mb). rewrite Eb. cbn [bind].
    pose proof (els_set (c_support c) i b Fc Wb Ni Mb) as Pb.
    destruct (absorb_ok st Hst cs b Wb F) as (W1 & E1 & P1 & M1).
    { eapply Permutation_NoDup; [|exact N]. rewrite app_comm_cons. apply Permutation_app_tail. symmetry. exact Pb. }
    destruct (absorb st b cs) as [sup rest1]. cbn [fst snd] in *.
    exists [], c, cs, (mk_comp (c_type c) (c_offset c) sup (c_position c)). cbn [app c_support].
    split; [reflexivity|]. split; [constructor|]. split; [exact M|]. split; [rewrite E1; reflexivity|]. split; [exact W1|]. split.
    + cbn [nodes flat_map c_support]. fold (nodes cs). rewrite <- E1. fold (nodes rest1). rewrite P1. rewrite app_comm_cons. apply Permutation_app_tail. exact Pb.
    + intros u. rewrite M1, Mb, orb_true_iff, Nat.eqb_eq. split.
      * intros [[H|H]|(e & I & D)]; [auto|right; exists c; split; [left; auto|auto]|right; exists e; split; [right; auto|auto]].
      * intros [H|(e & [<-|I] & D & U)]; [auto|auto|right; exists e; auto].
  - destruct Id as [<-|Id]; [congruence|].
    destruct (IH F) as (pre & c0 & rest & c1 & E & Fp & M0 & J & W & P & U); [|exists d; auto|].
    { apply (nodup_r (els (c_support c))). eapply Permutation_NoDup; [|exact N].
      cbn [nodes flat_map]. fold (nodes cs). apply Permutation_middle. }
    exists (c :: pre), c0, rest, c1. split; [rewrite E; reflexivity|]. split; [constructor; auto|]. split; [exact M0|].
    split; [rewrite J; reflexivity|]. split; [exact W|]. split.
    + cbn [app nodes flat_map]. fold (nodes cs) (nodes (pre ++ c1 :: filter (fun c => negb (meets st c)) rest)). rewrite P. symmetry. apply Permutation_middle.
    + intros u. rewrite U. split; (intros [H|(e & I & D)]; [auto|right; exists e]); [split; [right; auto|auto]|].
      destruct I as [<-|I]; [destruct D; congruence|auto].
Qed.

Section Comps.
Variable star : list Z.
Variable n : nat.
Variable adj : nat -> nat -> bool.
Hypothesis adj_sym : forall i j, adj i j = adj j i.
Hypothesis adj_irr : forall i, adj i i = false.
Hypothesis ST : stars star n adj.

(** a component among the nodes below [k] *)
Definition is_comp (k : nat) (c : comp) : Prop :=
  is32 (c_support c) /\ (exists u, mem (c_support c) u = true) /\ connected adj (mem (c_support c)) /\
  forall i j, mem (c_support c) i = true -> j < k -> adj i j = true -> mem (c_support c) j = true.
Definition comps_inv (k : nat) (cs : list comp) : Prop :=
  Permutation (nodes cs) (seq 0 k) /\ Forall (is_comp k) cs.

Lemma find_comps_step k cs : k < n -> comps_inv k cs ->
  gives (run st <- vget star k;
    if (Z.land st (BitmapModel.lt_mask (Z.of_nat k)) =? 0)%Z then run c <- new_comp k; Ok (cs ++ [c])
    else join k st cs) (comps_inv (S k)) never.
Proof.
  intros Hk [P F]. pose proof (n32 star n adj ST) as H32. rewrite (star_get star n adj ST k Hk). cbn [bind].
  pose proof (star_32 star n adj ST k Hk) as Wst. set (st := nth k star 0%Z) in *.
  assert (Mst : forall u, mem st u = adj k u) by (intros u; apply (star_mem star n adj ST); auto).
  assert (InN : forall c u, In c cs -> mem (c_support c) u = true -> u < k).
  { intros c u I M. assert (In u (nodes cs)).
    { apply nodes_in. exists c. split; [exact I|]. apply els_in; [|exact M]. rewrite Forall_forall in F. apply (F c I). }
    eapply Permutation_in in H; [|exact P]. apply in_seq in H. lia. }
  assert (Cov : forall u, u < k -> exists c, In c cs /\ mem (c_support c) u = true).
  { intros u Hu. assert (In u (nodes cs)) by (eapply Permutation_in; [symmetry; exact P|apply in_seq; lia]).
    apply nodes_in in H as (c & I & M). exists c. split; [exact I|]. apply els_in; [|exact M]. rewrite Forall_forall in F. apply (F c I). }
  assert (F32 : Forall (fun c => is32 (c_support c)) cs) by (eapply Forall_impl; [|exact F]; intros c H; apply H).
  destruct (Z.land st (BitmapModel.lt_mask (Z.of_nat k)) =? 0)%Z eqn:Z0.
  - pose proof (proj1 (lt_mask_ok st k Wst) Z0) as Free.
    unfold new_comp. destruct (nset_ok 0%Z k is32_0 ltac:(lia)) as (b & Eb & Wb & Mb). rewrite Eb. cbn [bind].
    assert (Mb' : forall u, mem b u = (u =? k)) by (intros u; rewrite Mb, mem_0, orb_false_r; reflexivity).
    apply gives_ok. split.
    + rewrite nodes_app. cbn [nodes flat_map c_support]. rewrite app_nil_r, seq_S. apply Permutation_app; [exact P|]. cbn [Nat.add].
      rewrite (els_set 0%Z k b is32_0 Wb (mem_0 k) Mb). constructor.
      replace (els 0) with (@nil nat); [constructor|]. destruct (els 0) as [|x l] eqn:E; [reflexivity|].
      assert (I : In x (els 0)) by (rewrite E; left; reflexivity). rewrite els_in, mem_0 in I by apply is32_0. discriminate.
    + apply Forall_app. split; [|constructor; [|constructor]].
      * rewrite Forall_forall in *. intros c I. destruct (F c I) as (W & Ne & C & Cl). repeat split; try apply W; auto.
        intros i j Mi Hj E. destruct (Nat.eq_dec j k) as [->|Nj]; [|apply (Cl i j); auto; lia].
        exfalso. rewrite adj_sym, <- Mst, Free in E; [discriminate|]. apply (InN c i); auto.
      * repeat split; cbn [c_support]; [apply Wb|apply Wb|exists k; rewrite Mb', Nat.eqb_refl; reflexivity| |].
        -- intros T x Rx Tx _ y Ry. rewrite Mb' in Rx, Ry. apply Nat.eqb_eq in Rx, Ry. congruence.
        -- intros i j Mi Hj E. rewrite Mb' in *. apply Nat.eqb_eq in Mi. subst i. apply Nat.eqb_eq.
           destruct (Nat.eq_dec j k); [auto|]. rewrite <- Mst, Free in E by lia. discriminate.
  - assert (Ex : exists u, u < k /\ mem st u = true).
    { assert (X : existsb (mem st) (seq 0 k) = true).
      { destruct (existsb (mem st) (seq 0 k)) eqn:X; [reflexivity|]. exfalso.
        assert (T : (Z.land st (BitmapModel.lt_mask (Z.of_nat k)) =? 0)%Z = true); [|congruence].
        apply lt_mask_ok; auto. intros j Hj. destruct (mem st j) eqn:Mj; [|reflexivity].
        assert (existsb (mem st) (seq 0 k) = true) by (apply existsb_exists; exists j; split; [apply in_seq; lia|auto]). congruence. }
      apply existsb_exists in X as (u & I & M). apply in_seq in I. exists u. split; [lia|exact M]. }
    destruct Ex as (u & Hu & Mu). destruct (Cov u Hu) as (c & Ic & Mc).
    assert (Wc : is32 (c_support c)) by (rewrite Forall_forall in F32; apply F32; auto).
    destruct (join_ok k st Wst ltac:(lia) cs F32) as (pre & c0 & rest & c1 & Ecs & Fp & M0 & J & W1 & P1 & U1).
    { constructor.
      - intros I. eapply Permutation_in in I; [|exact P]. apply in_seq in I. lia.
      - eapply Permutation_NoDup; [symmetry; exact P|apply seq_NoDup]. }
    { exists c. split; [exact Ic|]. apply meets_ok; auto. exists u. auto. }
    rewrite J. apply gives_ok. split.
    + rewrite P1. rewrite P. rewrite seq_S. cbn [Nat.add]. apply Permutation_cons_append.
    + assert (Keep : forall c, In c cs -> meets st c = false -> is_comp (S k) c).
      { intros e Ie Me. rewrite Forall_forall in F, F32. destruct (F e Ie) as (W & Ne & C & Cl). repeat split; try apply W; auto.
        intros i j Mi Hj E. destruct (Nat.eq_dec j k) as [->|Nj]; [|apply (Cl i j); auto; lia]. exfalso.
        assert (meets st e = true); [|congruence]. apply meets_ok; auto. exists i. split; [auto|]. rewrite Mst, adj_sym. exact E. }
      apply Forall_app. split; [|constructor].
      * rewrite Forall_forall in *. intros e Ie. apply Keep; [rewrite Ecs; apply in_app_iff; auto|apply Fp; auto].
      * repeat split; try apply W1; [exists k; apply U1; auto| |].
        -- intros T x Rx Tx St y Ry.
           assert (Tall : forall e v, In e cs -> meets st e = true -> mem (c_support e) v = true -> T v -> forall w, mem (c_support e) w = true -> T w).
           { intros e v Ie Me Mv Tv w Mw. rewrite Forall_forall in F. destruct (F e Ie) as (_ & _ & C & _).
             apply (C T v Mv Tv); [|exact Mw]. intros a b Ma Mb Eab Ta. apply (St a b); auto; apply U1; right; exists e; auto. }
           assert (Tk : T k).
           { apply U1 in Rx as [->|(e & Ie & Me & Mx)]; [exact Tx|].
             assert (We : is32 (c_support e)) by (rewrite Forall_forall in F32; auto).
             destruct (proj1 (meets_ok st e Wst We) Me) as (w & Mw & Sw).
             apply (St w k); [apply U1; right; exists e; auto|apply U1; auto|rewrite adj_sym, <- Mst; exact Sw|].
             apply (Tall e x); auto. }
           apply U1 in Ry as [->|(e & Ie & Me & My)]; [exact Tk|].
           assert (We : is32 (c_support e)) by (rewrite Forall_forall in F32; auto).
           destruct (proj1 (meets_ok st e Wst We) Me) as (w & Mw & Sw).
           apply (Tall e w); auto. apply (St k w); [apply U1; auto|apply U1; right; exists e; auto|rewrite <- Mst; exact Sw|exact Tk].
        -- intros i j Mi Hj E. apply U1. destruct (Nat.eq_dec j k) as [->|Nj]; [auto|]. right.
           apply U1 in Mi as [->|(e & Ie & Me & Mi)].
           ++ destruct (Cov j ltac:(lia)) as (e & Ie & Me). exists e. split; [exact Ie|]. split; [|exact Me].
              apply meets_ok; [exact Wst|rewrite Forall_forall in F32; auto|]. exists j. rewrite Mst. auto.
           ++ exists e. split; [exact Ie|]. split; [exact Me|]. rewrite Forall_forall in F. destruct (F e Ie) as (_ & _ & _ & Cl).
              apply (Cl i j); auto. lia.
      * rewrite Forall_forall. intros e Ie. apply filter_In in Ie as [Ie Me]. apply Keep; [rewrite Ecs; apply in_app_iff; right; right; exact Ie|].
        apply negb_true_iff. exact Me.
Qed.

Theorem find_comps_ok : gives (find_comps star) (comps_inv n) never.
Proof.
  unfold find_comps. destruct ST as [Len _]. rewrite Len.
  apply (gives_upto0 comps_inv); [split; [constructor|constructor]| |auto].
  intros k cs Hk I. apply find_comps_step; auto.
Qed.
End Comps.
