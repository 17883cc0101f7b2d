(** The Dynkin diagram of a matrix: construction, uniqueness of the type. *)

From Coq Require Import List Arith ZArith Bool Lia Permutation.
From Verif Require Import VecModel VecProofs RunModel RunProofs MatModel MatSpec MatProofs BitsetModel BitsetSpec
  LieTypeModel LieTypeSpec DynkinModel DynBits DynGraph DynTrav DynRead DynComps DynClass DynShape DynFin.
Import ListNotations.
Local Open Scope nat_scope.

Definition comp_bk (c : comp) : bk := (c_type c, c_position c).
(** what is known of the diagram made from a matrix *)
Record diagram_ok (n : nat) (f : nat -> nat -> Z) (d : diagram) : Prop := {
  dg_read : readable n f;
  dg_star : stars (d_star d) n (adjf n f);
  dg_down : labels n f (d_down d);
  dg_dec : dec f (map comp_bk (d_comps d));
  dg_nodes : Permutation (bnodes (map comp_bk (d_comps d))) (seq 0 n);
  dg_comps : Forall (fun c => is_comp (adjf n f) n c /\ lists (c_position c) (mem (c_support c))) (d_comps d) }.

Lemma comps_nodup_apart n f cs : readable n f -> NoDup (nodes cs) -> (forall u, In u (nodes cs) -> u < n) -> Forall (is_comp (adjf n f) n) cs ->
  Forall (fun c => shape f (c_support c) (c_type c) (c_position c) /\ c_type c <> tT) cs -> dec f (map comp_bk cs).
Proof.
  intros RD. induction cs as [|c cs IH]; intros ND Lt F1 F2; [exact I|]. inversion F1 as [|? ? C1 F1']. inversion F2 as [|? ? [Sh NT] F2']. subst.
  cbn [map dec]. unfold nodes in ND. cbn [flat_map] in ND. destruct C1 as (W & _ & _ & Cl).
  assert (InS : forall x, In x (c_position c) -> mem (c_support c) x = true) by (intros x I1; apply Sh; exact I1).
  split; [|split].
  - destruct Sh as (V & Ls & E). split; [exact NT|]. split; [exact V|exact E].
  - intros x y Ix Iy. cbn [comp_bk snd] in Ix. apply InS in Ix.
    unfold bnodes in Iy. apply in_flat_map in Iy as (b & Ib & Iy). apply in_map_iff in Ib as (c' & <- & Ic'). cbn [comp_bk snd] in Iy.
    rewrite Forall_forall in F1', F2'. destruct (F2' c' Ic') as [Sh' _]. destruct (F1' c' Ic') as (W' & _). apply Sh' in Iy.
    assert (Ny : mem (c_support c) y = false).
    { destruct (mem (c_support c) y) eqn:My; [|reflexivity]. exfalso. apply (els_in _ y W) in My. apply (els_in _ y W') in Iy.
      revert ND My. generalize (els (c_support c)). intros l ND My. apply in_split in My as (l1 & l2 & ->). rewrite <- app_assoc in ND. cbn in ND.
      apply nodup_r in ND. inversion ND as [|? ? Q _]. apply Q. apply in_app_iff. right. apply in_flat_map. exists c'. auto. }
    assert (Hx : x < n) by (apply Lt; unfold nodes; cbn [flat_map]; apply in_app_iff; left; exact (proj2 (els_in _ x W) Ix)).
    assert (Hy : y < n) by (apply Lt; unfold nodes; cbn [flat_map]; apply in_app_iff; right; apply in_flat_map; exists c'; split; [exact Ic'|exact (proj2 (els_in _ y W') Iy)]).
    assert (N : x <> y) by congruence.
    assert (E1 : f x y = 0%Z).
    { destruct (Z.eq_dec (f x y) 0); [assumption|]. exfalso. assert (mem (c_support c) y = true); [|congruence]. apply (Cl x y Ix Hy). apply adjf_intro; auto. }
    split; [exact E1|]. destruct RD as ((_ & _ & Sy) & _). apply Sy; assumption.
  - apply IH; auto.
    + apply nodup_r in ND. exact ND.
    + intros u Iu. apply Lt. unfold nodes. cbn [flat_map]. apply in_app_iff. right. exact Iu.
Qed.
Lemma nodes_bnodes f cs : Forall (fun c => is32 (c_support c) /\ shape f (c_support c) (c_type c) (c_position c)) cs ->
  Permutation (bnodes (map comp_bk cs)) (nodes cs).
Proof.
  induction cs as [|c cs IH]; intros F; [constructor|]. inversion F as [|? ? (W & _ & Ls & _) F']. subst. unfold bnodes, nodes in *.
  cbn [map flat_map comp_bk snd]. apply Permutation_app; [|apply IH; exact F'].
  apply NoDup_Permutation; [apply Ls|apply els_nodup|]. intros x. rewrite (els_in _ x W). apply Ls.
Qed.
Lemma is_comp_mem n f cs c u : comps_inv (adjf n f) n cs -> In c cs -> mem (c_support c) u = true -> u < n.
Proof.
  intros (P & F) I M. rewrite Forall_forall in F. destruct (F c I) as (W & _). apply (els_in _ u W) in M.
  assert (J : In u (nodes cs)) by (apply nodes_in; exists c; auto). rewrite P in J. apply in_seq in J. lia.
Qed.

(** the offsets are the numbers of nodes in the earlier components *)
Fixpoint offsets_from (i : nat) (cs : list comp) : Prop :=
  match cs with [] => True | c :: rest => c_offset c = i /\ offsets_from (i + length (c_position c)) rest end.

Section Main.
Variable n : nat.
Variable f : nat -> nat -> Z.
Variable c : matrix Z.
Hypothesis MX : is_mx c n n f.
Hypothesis N32 : n <= 32.

Lemma classify_one_ok star down k : readable n f -> stars star n (adjf n f) -> labels n f down ->
  is_comp (adjf n f) n k -> (forall u, mem (c_support k) u = true -> u < n) ->
  gives (classify_comp c star down (c_support k)) (good_result f (c_support k)) (fun e => e = Thrown /\ ~ finite_type n f).
Proof.
  intros RD ST LB (W & NE & C & Cl) Lt.
  assert (Cl' : forall i j, mem (c_support k) i = true -> adjf n f i j = true -> mem (c_support k) j = true).
  { intros i j M A. apply (Cl i j M); [|exact A]. apply adjf_lt in A. apply A. }
  eapply gives_mono_err; [|apply (classify_comp_ok n f c star down RD MX ST LB (c_support k) W Lt C Cl' NE)].
  cbn. intros e [-> R]. split; [reflexivity|]. intros (lt & pi & V & SS & St).
  destruct (straightens_dec n f lt pi V SS St) as (H & _ & E3). destruct NE as (u & Mu).
  destruct (comp_block n f (blocks lt pi) (c_support k) H) with (u := u) as (b & _ & _ & Sh & NT); auto.
  - rewrite E3. apply St.
  - revert R. apply (no_reason n f star ST (c_support k) W Lt Cl' (fst b) (snd b) Sh NT).
Qed.
Lemma classify_all_ok star down : readable n f -> stars star n (adjf n f) -> labels n f down ->
  forall cs i, Forall (fun k => is_comp (adjf n f) n k /\ forall u, mem (c_support k) u = true -> u < n) cs ->
  gives (classify_all c star down cs i)
    (fun cs1 => map c_support cs1 = map c_support cs /\ offsets_from i cs1 /\
       Forall (fun c => shape f (c_support c) (c_type c) (c_position c) /\ c_type c <> tT) cs1)
    (fun e => e = Thrown /\ ~ finite_type n f).
Proof.
  intros RD ST LB. induction cs as [|k cs IH]; intros i F; cbn [classify_all].
  - apply gives_ok. repeat split. constructor.
  - inversion F as [|? ? [C Lt] F']. subst. eapply gives_bind; [apply classify_one_ok; assumption|].
    intros [X p] [Sh NT]. cbn [fst snd] in *. eapply gives_bind; [apply IH; exact F'|]. intros cs1 (E & O & G). apply gives_ok.
    cbn [map c_support fst snd]. split; [rewrite E; reflexivity|]. split.
    + cbn [offsets_from c_offset c_position]. split; [reflexivity|]. destruct C as (W & _). rewrite (ncount_ok _ W) in O.
      destruct Sh as (_ & Ls & _). rewrite (lists_length _ W p Ls), rank_eq. exact O.
    + constructor; [|exact G]. cbn [c_support c_type c_position]. split; assumption.
Qed.
Theorem dynkin_ok : gives (dynkin c) (fun d => diagram_ok n f d /\ offsets_from 0 (d_comps d)) (fun e => e = Thrown /\ ~ finite_type n f).
Proof.
  unfold dynkin.
  eapply gives_bind; [eapply gives_mono_err; [|apply (read_matrix_ok n f N32 c MX)]|].
  { cbn. intros e [-> NR]. split; [reflexivity|]. intros (lt & pi & V & SS & St). apply NR.
    destruct (straightens_dec n f lt pi V SS St) as (H & _ & E3). apply (dec_readable n f (blocks lt pi) H). rewrite E3. apply St. }
  intros [star down] (RD & ST & LB). cbn [fst snd] in *.
  eapply gives_bind; [eapply gives_mono_err; [|apply (find_comps_ok star n (adjf n f))]|]; auto.
  { cbn. intros e []. }
  { intros i j. apply adjf_sym. apply RD. }
  intros cs CI. pose proof CI as (P & F).
  eapply gives_bind; [apply (classify_all_ok star down RD ST LB cs 0)|].
  { rewrite Forall_forall in *. intros k Ik. split; [apply F; exact Ik|]. intros u. apply (is_comp_mem n f cs); assumption. }
  intros cs1 (E & O & G). apply gives_ok. split; [|exact O].
  assert (Enodes : nodes cs1 = nodes cs).
  { unfold nodes. rewrite !flat_map_concat_map. f_equal. rewrite <- (map_map c_support els), E, map_map. reflexivity. }
  assert (F1 : Forall (is_comp (adjf n f) n) cs1).
  { rewrite Forall_forall in *. intros k Ik. assert (I : In (c_support k) (map c_support cs)) by (rewrite <- E; apply in_map; exact Ik).
    apply in_map_iff in I as (k' & Ek & Ik'). specialize (F k' Ik'). unfold is_comp in *. rewrite Ek in F. exact F. }
  assert (ND : NoDup (nodes cs1)) by (rewrite Enodes; apply (Permutation_NoDup (l := seq 0 n)); [symmetry; exact P|apply seq_NoDup]).
  constructor; cbn [d_star d_down d_comps]; auto.
  - apply (comps_nodup_apart n f cs1 RD ND); auto. intros u I. rewrite Enodes, P in I. apply in_seq in I. lia.
  - etransitivity; [apply (nodes_bnodes f)|rewrite Enodes; exact P]. rewrite Forall_forall in *. intros k Ik. split; [apply F1; exact Ik|apply G; exact Ik].
  - rewrite Forall_forall in *. intros k Ik. split; [apply F1; exact Ik|apply G; exact Ik].
Qed.
End Main.
