(** The simply connected datum of a Lie type. *)

From Coq Require Import List Arith ZArith Bool Lia Permutation.
From Verif Require Import VecModel VecProofs RunModel RunProofs MatModel MatSpec MatProofs MatLin MatOps MatProps RedSpec
  LieTypeModel LieTypeSpec LieTypeProofs DynClass RootModel RootSpec RootBase RootMath RootForm DatModel DatSpec DatMath DatProofs DatOps DatSub DatFund DatPre.
Import ListNotations.
Local Open Scope nat_scope.

(** the positions outside the torus factors *)
Fixpoint places (lt : lietype) : list nat :=
  match lt with
  | [] => []
  | s :: rest => (if leqb (fst s) tT then [] else seq 0 (snd s)) ++ map (Nat.add (snd s)) (places rest)
  end.
Lemma places_app l1 l2 : places (l1 ++ l2) = places l1 ++ map (Nat.add (total l1)) (places l2).
Proof.
  induction l1 as [|s l1 IH]; cbn [app places total]; [symmetry; apply map_id|]. rewrite IH, map_app, map_map, app_assoc. f_equal. apply map_ext. intros; lia.
Qed.
Lemma places_length lt : length (places lt) = total (derived lt).
Proof.
  induction lt as [|s lt IH]; [reflexivity|]. cbn [places]. rewrite app_length, map_length, IH. unfold derived. cbn [filter]. destruct (leqb (fst s) tT); cbn [negb total length]; [reflexivity|]. rewrite seq_length. reflexivity.
Qed.
Lemma total_app l1 l2 : total (l1 ++ l2) = total l1 + total l2.
Proof. induction l1 as [|s l1 IH]; [reflexivity|]. cbn. rewrite IH. lia. Qed.
Lemma places_lt lt x : In x (places lt) -> x < total lt.
Proof.
  revert x. induction lt as [|s lt IH]; intros x I; [destruct I|]. cbn [places total] in *. apply in_app_iff in I. destruct I as [I|I].
  - destruct (leqb (fst s) tT); [destruct I|]. apply in_seq in I. lia.
  - apply in_map_iff in I. destruct I as (y & <- & I). apply IH in I. lia.
Qed.
Lemma places_nodup lt : NoDup (places lt).
Proof.
  induction lt as [|s lt IH]; [constructor|]. cbn [places]. apply NoDup_app_intro.
  - destruct (leqb (fst s) tT); [constructor|apply seq_NoDup].
  - apply FinFun.Injective_map_NoDup; [intros a b; lia|exact IH].
  - intros x I J. apply in_map_iff in J. destruct J as (y & <- & _). destruct (leqb (fst s) tT); [destruct I|]. apply in_seq in I. lia.
Qed.
Lemma places_entry lt i j : i < total (derived lt) -> j < total (derived lt) -> block_diagonal lt (nth i (places lt) 0) (nth j (places lt) 0) = block_diagonal (derived lt) i j.
Proof.
  revert i j. induction lt as [|s lt IH]; intros i j Hi Hj; [cbn in Hi; lia|]. unfold derived in *. cbn [filter places] in *. fold (derived lt) in *.
  assert (N : forall k, k < total (derived lt) -> nth k (map (Nat.add (snd s)) (places lt)) 0 = snd s + nth k (places lt) 0).
  { intros k Hk. rewrite (nth_indep _ 0 (snd s + 0)) by (rewrite map_length, places_length; exact Hk). apply map_nth. }
  destruct (leqb (fst s) tT); cbn [negb app] in *.
  - cbn [block_diagonal]. rewrite !N by assumption. rewrite !(proj2 (Nat.ltb_ge _ (snd s))) by lia. cbn [andb orb]. rewrite <- IH by assumption. f_equal; lia.
  - cbn [total block_diagonal] in *.
    assert (P : forall k, k < snd s + total (derived lt) -> nth k (seq 0 (snd s) ++ map (Nat.add (snd s)) (places lt)) 0 = if k <? snd s then k else snd s + nth (k - snd s) (places lt) 0).
    { intros k Hk. destruct (Nat.ltb_spec k (snd s)) as [Q|Q]; [rewrite app_nth1 by (rewrite seq_length; exact Q); apply seq_nth; exact Q|]. rewrite app_nth2 by (rewrite seq_length; exact Q). rewrite seq_length. apply N. lia. }
    rewrite !P by assumption. destruct (Nat.ltb_spec i (snd s)) as [Qi|Qi], (Nat.ltb_spec j (snd s)) as [Qj|Qj]; rewrite ?(proj2 (Nat.ltb_lt i (snd s)) Qi), ?(proj2 (Nat.ltb_lt j (snd s)) Qj), ?(proj2 (Nat.ltb_ge (snd s + _) (snd s))) by lia; cbn [andb orb]; try reflexivity.
    rewrite <- IH by lia. f_equal; lia.
Qed.
(** the columns of the two matrices *)
Definition type_root (lt : lietype) (i j : nat) : Z := block_diagonal lt (nth j (places lt) 0) i.
Definition type_coroot (lt : lietype) (i j : nat) : Z := delta i (nth j (places lt) 0).
Lemma place_at lt k t i : get lt k = Some t -> leqb (fst t) tT = false -> i < snd t -> nth (length (places (firstn k lt)) + i) (places lt) 0 = total (firstn k lt) + i /\ length (places (firstn k lt)) + i < length (places lt).
Proof.
  intros G N Hi. pose proof (firstn_skipn k lt) as Q. rewrite (DatOps.skipn_get _ _ _ G) in Q.
  assert (E : places lt = places (firstn k lt) ++ map (Nat.add (total (firstn k lt))) (seq 0 (snd t) ++ map (Nat.add (snd t)) (places (skipn (S k) lt)))).
  { rewrite <- Q at 1. rewrite places_app. cbn [places]. rewrite N. reflexivity. }
  rewrite E. split; [|rewrite app_length, map_length, app_length, seq_length; lia].
  rewrite app_nth2 by lia. replace (length (places (firstn k lt)) + i - length (places (firstn k lt))) with i by lia.
  rewrite (nth_indep _ 0 (total (firstn k lt) + 0)) by (rewrite map_length, app_length, seq_length; lia). rewrite map_nth, app_nth1 by (rewrite seq_length; exact Hi). rewrite seq_nth by exact Hi. reflexivity.
Qed.
Lemma of_type_run lt pf : valid_type lt -> small lt -> exists q, p_of_type lt pf = Ok q /\ p_prefer q = pf /\
  is_mx (p_roots q) (total lt) (total (derived lt)) (type_root lt) /\ is_mx (p_coroots q) (total lt) (total (derived lt)) (type_coroot lt).
Proof.
  intros V SM. assert (G : gives (p_of_type lt pf) (fun q => p_prefer q = pf /\
    is_mx (p_roots q) (total lt) (total (derived lt)) (type_root lt) /\ is_mx (p_coroots q) (total lt) (total (derived lt)) (type_coroot lt)) never).
  2:{ destruct (p_of_type lt pf) as [q|e]; [|destruct G]. exists q. split; [reflexivity|exact G]. }
  unfold p_of_type. rewrite lt_rank_total, lt_ss_rank_total. set (N := total lt). set (m := total (derived lt)).
  set (inv := fun (s r : nat) (M K : matrix Z) => exists f h, is_mx M N m f /\ is_mx K N m h /\ forall i j, i < N -> j < m -> (j < s -> f i j = type_root lt i j) /\ h i j = if j <? s then type_coroot lt i j else 0%Z).
  eapply gives_bind with (P := fun '(M, K, _, _) => is_mx M N m (type_root lt) /\ is_mx K N m (type_coroot lt)).
  2:{ intros [[[M K] s] r] [H1 H2]. apply gives_ok. split; [reflexivity|]. split; assumption. }
  apply (gives_upto0 (fun k '(M, K, s, r) => s = length (places (firstn k lt)) /\ r = total (firstn k lt) /\ inv s r M K)).
  - split; [reflexivity|]. split; [reflexivity|]. exists (fun _ _ => 0%Z), (fun _ _ => 0%Z). split; [apply fill_ok|]. split; [apply fill_ok|]. intros i j _ _. split; [lia|reflexivity].
  - intros k [[[M K] s] r] Hk (Es & Er & I). destruct (get_some lt k Hk) as [t Gt]. rewrite (vget_ok _ _ _ Gt). cbn [bind].
    assert (Fk : firstn (S k) lt = firstn k lt ++ [t]) by (apply DatOps.firstn_get; exact Gt).
    destruct (leqb (fst t) tT) eqn:ET.
    + apply gives_ok. rewrite Fk, places_app, total_app. cbn [places total]. rewrite ET. cbn [app map]. rewrite app_nil_r. split; [exact Es|]. split; [lia|exact I].
    + rewrite Fk, places_app, total_app. cbn [places total]. rewrite ET. cbn [app map]. rewrite app_nil_r, app_length, map_length, seq_length.
      apply (gives_upto0 (fun x '(M, K, s, r) => s = length (places (firstn k lt)) + x /\ r = total (firstn k lt) + x /\ inv s r M K)).
      * split; [lia|]. split; [lia|exact I].
      * clear Es Er I M K s r. intros x [[[M K] s] r] Hx (Es & Er & f & h & HM & HK & Q).
        destruct (place_at lt k t x Gt ET Hx) as [P0 P2]. rewrite (places_length lt) in P2. assert (P1 : nth s (places lt) 0 = r) by (rewrite Es, Er; exact P0). assert (Hs : s < m) by (rewrite Es; exact P2). clear P0 P2.
        assert (Hr : r < N). { rewrite <- P1. apply places_lt. apply nth_In. rewrite places_length. exact Hs. }
        eapply gives_bind with (P := fun M1 => is_mx M1 N m (fun i j => if j =? s then lt_entry lt r i else f i j)).
        { apply (gives_upto0 (fun y M1 => is_mx M1 N m (fun i j => if (j =? s) && (i <? y) then lt_entry lt r i else f i j))).
          - eapply is_mx_ext; [exact HM|]. intros i j _ _. rewrite andb_false_r. reflexivity.
          - intros y M1 Hy H1. apply (gives_mput _ _ _ _ _ _ _ _ H1 Hy Hs). intros M2 H2. eapply is_mx_ext; [exact H2|]. intros i j Hi Hj. cbv beta. unfold upd. destruct (Nat.eqb_spec j s) as [->|Nj]; cbn [andb]; rewrite ?andb_false_r; [|reflexivity].
            destruct (Nat.eqb_spec i y) as [->|Ni]; cbn [andb]; [rewrite (proj2 (Nat.ltb_lt y (S y))) by lia; reflexivity|]. destruct (Nat.ltb_spec i y), (Nat.ltb_spec i (S y)); try lia; reflexivity.
          - intros M1 H1. eapply is_mx_ext; [exact H1|]. intros i j Hi Hj. cbv beta. rewrite (proj2 (Nat.ltb_lt i N) Hi), andb_true_r. reflexivity. }
        intros M1 HM1. eapply gives_bind with (P := fun K1 => is_mx K1 N m (upd h r s 1%Z)); [apply (gives_mput _ _ _ _ _ _ _ _ HK Hr Hs); intros K1 H1; exact H1|]. intros K1 HK1. apply gives_ok.
        split; [lia|]. split; [lia|]. eexists _, _. split; [exact HM1|]. split; [exact HK1|]. intros i j Hi Hj. destruct (Q i j Hi Hj) as [Q1 Q2]. cbv beta. split.
        -- intros Lj. destruct (Nat.eqb_spec j s) as [->|Nj]; [|apply Q1; lia]. rewrite lt_entry_ok by assumption. unfold type_root. rewrite P1. reflexivity.
        -- unfold upd. rewrite Q2. destruct (Nat.eqb_spec j s) as [->|Nj].
           ++ rewrite andb_true_r, (proj2 (Nat.ltb_lt s (S s))) by lia. unfold type_coroot. rewrite P1. unfold delta. destruct (i =? r); [reflexivity|]. rewrite (proj2 (Nat.ltb_ge s s)) by lia. reflexivity.
           ++ rewrite andb_false_r. destruct (Nat.ltb_spec j s), (Nat.ltb_spec j (S s)); try lia; reflexivity.
      * intros [[[M1 K1] s1] r1] (E1 & E2 & I1). split; [exact E1|]. split; [lia|exact I1].
  - intros [[[M K] s] r] (Es & Er & f & h & HM & HK & Q). rewrite firstn_all, places_length in Es. fold m in Es. subst s.
    split; (eapply is_mx_ext; [eassumption|]; intros i j Hi Hj; destruct (Q i j Hi Hj) as [Q1 Q2]); [apply Q1; exact Hj|]. rewrite Q2, (proj2 (Nat.ltb_lt j m) Hj). reflexivity.
Qed.
Lemma type_pairings lt i j : i < total (derived lt) -> j < total (derived lt) ->
  dot (total lt) (fcol (total lt) (type_root lt) i) (fcol (total lt) (type_coroot lt) j) = block_diagonal (derived lt) i j.
Proof.
  intros Hi Hj. unfold dot. assert (L : nth j (places lt) 0 < total lt) by (apply places_lt; apply nth_In; rewrite places_length; exact Hj).
  rewrite (zsum_one (total lt) (nth j (places lt) 0)).
  - rewrite !co_fcol by exact L. unfold type_root, type_coroot, delta. rewrite Nat.eqb_refl, places_entry by assumption. lia.
  - exact L.
  - intros k Hk Nk. rewrite (co_fcol _ (type_coroot lt)) by exact Hk. unfold type_coroot, delta. destruct (Nat.eqb_spec k (nth j (places lt) 0)); [contradiction|lia].
Qed.
Lemma type_saturated lt : saturated (total lt) (total (derived lt)) (type_coroot lt).
Proof.
  set (m := total (derived lt)). set (N := total lt). intros k x Nk (y & Hy).
  assert (Ap : forall z i, i < N -> (forall j, j < m -> nth j (places lt) 0 <> i) -> fapply m (type_coroot lt) z i = 0%Z).
  { intros z i Hi H. apply zsum_zero. intros j Hj. unfold type_coroot, delta. destruct (Nat.eqb_spec i (nth j (places lt) 0)) as [Q|Q]; [exfalso; apply (H j Hj); congruence|lia]. }
  exists (fun j => x (nth j (places lt) 0)). intros i Hi. destruct (in_dec Nat.eq_dec i (places lt)) as [I|I].
  - destruct (In_nth _ _ 0 I) as (j & Hj & Ej). rewrite places_length in Hj. unfold fapply. rewrite (zsum_one m j).
    + unfold type_coroot, delta. rewrite Ej, Nat.eqb_refl. lia.
    + exact Hj.
    + intros a Ha Na. unfold type_coroot, delta. destruct (Nat.eqb_spec i (nth a (places lt) 0)) as [Q|Q]; [|lia]. exfalso. apply Na. apply (NoDup_nth (places lt) 0); [apply places_nodup|rewrite places_length; exact Ha|rewrite places_length; exact Hj|congruence].
  - assert (Q : forall j, j < m -> nth j (places lt) 0 <> i) by (intros j Hj E; apply I; rewrite <- E; apply nth_In; rewrite places_length; exact Hj).
    rewrite Ap by assumption. pose proof (Hy i Hi) as H. cbv beta in H. rewrite Ap in H by assumption. nia.
Qed.
Lemma type_finite lt : valid_type lt -> finite_type (total (derived lt)) (fun i j => dot (total lt) (fcol (total lt) (type_root lt) i) (fcol (total lt) (type_coroot lt) j)).
Proof.
  intros V. exists (derived lt), (seq 0 (total (derived lt))). split; [apply derived_valid; exact V|]. split; [apply derived_semisimple|]. split; [reflexivity|]. split; [apply Permutation_refl|].
  intros i j Hi Hj. rewrite !seq_nth by assumption. apply type_pairings; assumption.
Qed.
