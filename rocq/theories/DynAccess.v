(** Reading a Dynkin diagram: entries, edge multiplicities, renumbering, type and permutation. *)

From Coq Require Import List Arith ZArith Bool Lia Permutation.
From Verif Require Import VecModel VecProofs RunModel RunProofs MatModel MatSpec MatProofs BitsetModel BitsetSpec
  LieTypeModel LieTypeSpec DynkinModel DynBits DynGraph DynTrav DynRead DynComps DynClass DynShape DynFin DynMain DynUniq.
Import ListNotations.
Local Open Scope nat_scope.

Lemma find_edge_ok n f down i j : labels n f down -> i < n -> j < n -> i <> j -> (-3 <= f i j < 0)%Z -> find_edge down i j = f i j.
Proof.
  intros [ND L] Hi Hj N R.
  assert (Q : forall l, (forall a b x, In (a, b, x) l -> x = (- f a b)%Z) -> (In (i, j, (- f i j)%Z) l \/ f i j = -1)%Z ->
    (f i j = -1 -> ~ exists x, In (i, j, x) l)%Z -> find_edge l i j = f i j).
  { induction l as [|[[a b] x] l IH]; intros H1 H2 H3.
    - destruct H2 as [[]|H2]. cbn. symmetry. exact H2.
    - cbn [find_edge]. destruct (Nat.eqb_spec a i) as [->|Na]; cbn [andb].
      + destruct (Nat.eqb_spec b j) as [->|Nb].
        * rewrite (H1 i j x (or_introl eq_refl)). lia.
        * apply IH; [intros; apply H1; right; assumption| |intros E [y Y]; apply (H3 E); exists y; right; exact Y].
          destruct H2 as [[E|H2]|H2]; [injection E; intros; congruence|left; exact H2|right; exact H2].
      + apply IH; [intros; apply H1; right; assumption| |intros E [y Y]; apply (H3 E); exists y; right; exact Y].
        destruct H2 as [[E|H2]|H2]; [injection E; intros; congruence|left; exact H2|right; exact H2]. }
  apply Q.
  - intros a b x I1. apply L in I1. apply I1.
  - destruct (Z.eq_dec (f i j) (-1)) as [E|E]; [right; exact E|left]. apply L. repeat split; try assumption; lia.
  - intros E [x I1]. apply L in I1. lia.
Qed.
Lemma d_entry_ok n f d i j : diagram_ok n f d -> i < n -> j < n -> d_entry d i j = Ok (f i j).
Proof.
  intros [[CL LB] (Len & _ & ST & _) Dn _ _ _] Hi Hj. unfold d_entry. rewrite (vget_nth _ i 0%Z) by lia. cbn [bind]. f_equal.
  rewrite ntest_ok. destruct (ST i Hi) as [_ M]. rewrite M. unfold adjf.
  rewrite (proj2 (Nat.ltb_lt i n)), (proj2 (Nat.ltb_lt j n)) by assumption. cbn [andb].
  destruct CL as (C1 & C2 & C3). destruct (Nat.eqb_spec i j) as [->|N]; cbn [negb andb]; [symmetry; apply C1, Hj|].
  destruct (Z.eqb_spec (f i j) 0) as [E|E]; cbn [negb]; [symmetry; exact E|].
  apply (find_edge_ok n); try assumption. pose proof (C2 i j Hi Hj N). pose proof (LB i j Hi Hj N). lia.
Qed.
Lemma edge_multiplicity_ok n f d i j : diagram_ok n f d -> i < n -> j < n -> edge_multiplicity d i j = Ok (f i j * f j i)%Z.
Proof. intros H Hi Hj. unfold edge_multiplicity. rewrite (d_entry_ok n f d i j H Hi Hj), (d_entry_ok n f d j i H Hj Hi). reflexivity. Qed.

(** ** Renumbering *)
Lemma nth_map_at (h : nat -> nat) l i : i < length l -> nth i (map h l) 0 = h (nth i l 0).
Proof. revert i. induction l as [|x l IH]; intros i Hi; cbn in *; [lia|]. destruct i; [reflexivity|apply IH; lia]. Qed.
Lemma straightens_renumber n f g pi lt rho : permutes n pi -> straightens n f lt rho ->
  (forall i j, i < n -> j < n -> g (nth i pi 0) (nth j pi 0) = f i j) -> straightens n g lt (map (fun k => nth k pi 0) rho).
Proof.
  intros P (T & R & H) G. unfold permutes in *.
  assert (Lp : length pi = n) by (rewrite (Permutation_length P), seq_length; reflexivity).
  assert (Lr : length rho = n) by (rewrite (Permutation_length R), seq_length; reflexivity).
  assert (Bd : forall i, i < n -> nth i rho 0 < n).
  { intros i Hi. assert (I1 : In (nth i rho 0) rho) by (apply nth_In; lia). apply (Permutation_in _ R) in I1. apply in_seq in I1. lia. }
  split; [exact T|]. split.
  - unfold permutes. eapply perm_trans; [apply Permutation_map; exact R|].
    replace (map (fun k => nth k pi 0) (seq 0 n)) with pi; [exact P|].
    apply nth_ext with (d := 0) (d' := 0); [rewrite map_length, seq_length; exact Lp|].
    intros i Hi. rewrite nth_map_at by (rewrite seq_length; lia). rewrite seq_nth by lia. reflexivity.
  - intros i j Hi Hj.
    rewrite !nth_map_at by lia.
    rewrite G by (apply Bd; assumption). apply H; assumption.
Qed.
Lemma perm_inj n pi i j : permutes n pi -> i < n -> j < n -> nth i pi 0 = nth j pi 0 -> i = j.
Proof.
  intros P Hi Hj E. assert (Lp : length pi = n) by (rewrite (Permutation_length P), seq_length; reflexivity).
  assert (ND : NoDup pi) by (apply (Permutation_NoDup (Permutation_sym P)), seq_NoDup).
  apply (proj1 (NoDup_nth pi 0) ND); lia.
Qed.
Lemma perm_bound n pi i : permutes n pi -> i < n -> nth i pi 0 < n.
Proof.
  intros P Hi. assert (Lp : length pi = n) by (rewrite (Permutation_length P), seq_length; reflexivity).
  assert (I1 : In (nth i pi 0) pi) by (apply nth_In; lia). apply (Permutation_in _ P) in I1. apply in_seq in I1. lia.
Qed.
Lemma diagram_finite n f d : diagram_ok n f d -> finite_type n f.
Proof.
  intros H. destruct (dec_straightens n f _ (dg_dec n f d H) (dg_nodes n f d H)) as (V & SS & St).
  eexists. eexists. split; [exact V|]. split; [exact SS|exact St].
Qed.
Lemma permute_ok n f d pi : diagram_ok n f d -> permutes n pi ->
  gives (permute pi d) (fun d' => exists g, (forall i j, i < n -> j < n -> g (nth i pi 0) (nth j pi 0) = f i j) /\ diagram_ok n g d') never.
Proof.
  intros D P. assert (Lp : length pi = n) by (rewrite (Permutation_length P), seq_length; reflexivity).
  assert (Rk : d_rank d = n) by apply (dg_star n f d D). assert (N32 : n <= 32) by apply (dg_star n f d D).
  unfold permute. rewrite Rk.
  apply gives_bind with (P := fun M => exists g, is_mx M n n g /\ forall i j, i < n -> j < n -> g (nth i pi 0) (nth j pi 0) = f i j).
  - apply (gives_upto0 (fun k M => exists g, is_mx M n n g /\ forall i j, i < k -> j < n -> g (nth i pi 0) (nth j pi 0) = f i j)).
    + exists (fun _ _ => 0%Z). split; [apply fill_ok|]. intros; lia.
    + intros k M Hk (g & H1 & H2).
      apply (gives_upto0 (fun l M => exists g, is_mx M n n g /\ forall i j, i < k \/ i = k /\ j < l -> j < n -> g (nth i pi 0) (nth j pi 0) = f i j)).
      * exists g. split; [exact H1|]. intros i j [L|L] Hj; [apply H2; assumption|lia].
      * intros l M1 Hl (g1 & H3 & H4). rewrite !(vget_nth _ _ 0) by lia. cbn [bind]. rewrite (d_entry_ok n f d k l D Hk Hl). cbn [bind].
        apply (gives_mput M1 n n g1 (nth k pi 0) (nth l pi 0) _ _ H3); [apply perm_bound; assumption|apply perm_bound; assumption|].
        intros M2 H5. eexists. split; [exact H5|]. intros i j L Hj. unfold upd.
        destruct (Nat.eqb_spec (nth i pi 0) (nth k pi 0)) as [E1|E1]; cbn [andb].
        -- destruct (Nat.eqb_spec (nth j pi 0) (nth l pi 0)) as [E2|E2].
           ++ apply (perm_inj n) in E1; [|exact P|lia|exact Hk]. apply (perm_inj n) in E2; [|exact P|exact Hj|exact Hl]. subst. reflexivity.
           ++ apply (perm_inj n) in E1; [|exact P|lia|exact Hk]. subst. apply H4; [|exact Hj].
              destruct L as [L|[L1 L2]]; [left; exact L|right]. split; [reflexivity|]. destruct (Nat.eq_dec j l) as [->|]; [congruence|lia].
        -- apply H4; [|exact Hj]. destruct L as [L|[L1 L2]]; [left; exact L|]. subst. congruence.
      * intros M1 (g1 & H3 & H4). exists g1. split; [exact H3|]. intros i j Hi Hj. apply H4; [|exact Hj]. lia.
    + intros M H. exact H.
  - intros M (g & H1 & H2). assert (FT : finite_type n g).
    { destruct (diagram_finite n f d D) as (lt & rho & V & SS & St). exists lt. eexists. split; [exact V|]. split; [exact SS|].
      apply (straightens_renumber n f g pi lt rho P St H2). }
    pose proof (dynkin_ok n g M H1 N32) as G. destruct (dynkin M) as [d'|e]; cbn in *.
    + exists g. split; [exact H2|apply G].
    + destruct G as [_ G]. exact (G FT).
Qed.

(** ** The type *)
Lemma type_of_comps cs : type_of (map comp_bk cs) = map (fun c => (c_type c, length (c_position c))) cs.
Proof. unfold type_of. rewrite map_map. reflexivity. Qed.
Lemma perm_of_comps cs : bnodes (map comp_bk cs) = flat_map c_position cs.
Proof. induction cs as [|c cs IH]; [reflexivity|]. cbn [map bnodes flat_map comp_bk snd]. unfold bnodes in *. cbn [flat_map snd comp_bk]. rewrite IH. reflexivity. Qed.
Lemma d_type_ok n f d : diagram_ok n f d -> d_type d = Ok (type_of (map comp_bk (d_comps d))).
Proof.
  intros D. unfold d_type. assert (Rk : d_rank d = n) by apply (dg_star n f d D). assert (N32 : n <= 32) by apply (dg_star n f d D).
  rewrite Rk, (proj2 (Nat.ltb_ge 32 n)) by lia. rewrite type_of_comps. reflexivity.
Qed.
Lemma lie_type_perm_ok n f c : is_mx c n n f -> n <= 32 ->
  gives (lie_type_perm c) (fun q => valid_type (fst q) /\ semisimple (fst q) /\ straightens n f (fst q) (snd q)) (fun e => e = Thrown /\ ~ finite_type n f).
Proof.
  intros H L. unfold lie_type_perm. rewrite (is_mx_rows _ _ _ _ H), (is_mx_cols _ _ _ _ H), Nat.eqb_refl. cbn [negb].
  eapply gives_bind; [apply (dynkin_ok n f c H L)|]. cbn. intros d [D _]. rewrite (d_type_ok n f d D). cbn [bind gives].
  unfold d_perm. rewrite <- perm_of_comps. cbn [fst snd]. apply (dec_straightens n f _ (dg_dec n f d D) (dg_nodes n f d D)).
Qed.
Lemma lie_type_of_perm c : mrows c = mcols c -> lie_type c = bind (lie_type_perm c) (fun q => Ok (fst q)).
Proof.
  intros E. unfold lie_type, lie_type_perm. rewrite E, Nat.eqb_refl. cbn [negb]. destruct (dynkin c) as [d|e]; cbn [bind]; [|reflexivity].
  destruct (d_type d); reflexivity.
Qed.
Lemma lie_type_unique n f c t pi lt rho : is_mx c n n f -> n <= 32 -> lie_type_perm c = Ok (t, pi) ->
  valid_type lt -> semisimple lt -> straightens n f lt rho -> Permutation (map canonical t) (map canonical lt).
Proof.
  intros H L E V SS St. unfold lie_type_perm in E. rewrite (is_mx_rows _ _ _ _ H), (is_mx_cols _ _ _ _ H), Nat.eqb_refl in E. cbn [negb] in E.
  pose proof (dynkin_ok n f c H L) as G. destruct (dynkin c) as [d|e]; cbn [bind gives] in *; [|discriminate]. destruct G as [D _].
  rewrite (d_type_ok n f d D) in E. cbn [bind] in E. injection E as <- <-. apply (type_unique n f d lt rho D V SS St).
Qed.
(** a matrix of finite type is accepted *)
Lemma lie_type_complete n f c : is_mx c n n f -> n <= 32 -> finite_type n f -> exists t pi, lie_type_perm c = Ok (t, pi).
Proof.
  intros H L F. pose proof (lie_type_perm_ok n f c H L) as G. destruct (lie_type_perm c) as [[t pi]|e]; cbn in G; [eexists; eexists; reflexivity|].
  destruct G as [_ G]. destruct (G F).
Qed.
