(** Proofs about fold_orbits and cofold. *)

From Coq Require Import List Arith ZArith Bool Lia Permutation.
From Verif Require Import VecModel VecProofs RunModel RunProofs MatModel MatSpec MatLin MatRing MatProofs MatOps LatModel LieTypeSpec RootModel RootSpec RootMath RootForm RootFin RootBasis RootBase RootAcc RootUniq RootTop RootProps
  DatModel DatSpec DatMath DatProofs DatOps DatFactor DatMats DatSub DatPre DfModel DfSpec DfMath DfInv.
Import ListNotations.
Local Open Scope Z_scope.

Lemma NoDup_app_iff' {T} (a b : list T) : NoDup (a ++ b) <-> NoDup a /\ NoDup b /\ (forall x, In x a -> ~ In x b).
Proof.
  induction a as [|x a IH]; cbn; [split; [intros H; split; [constructor|]; split; [exact H|intros x []]|tauto]|].
  rewrite !NoDup_cons_iff, IH, in_app_iff. split.
  - intros (H1 & H2 & H3 & H4). split; [tauto|]. split; [exact H3|]. intros y [<-|H]; [tauto|apply H4; exact H].
  - intros ((H1 & H2) & H3 & H4). split; [intros [H|H]; [tauto|apply (H4 x); auto]|]. split; [exact H2|]. split; [exact H3|]. intros y Hy. apply H4. right. exact Hy.
Qed.
(** ** listing orbits *)
Section Orbits.
Variables (n : nat) (pi : nat -> nat) (o : nat -> bool) (orth : nat -> nat -> Prop).
Hypothesis range : forall s, (s < n)%nat -> (pi s < n)%nat.
Hypothesis Ho : forall s, (s < n)%nat -> (o s = true <-> orth s (pi s)).
Definition orbit_at (s : nat) : list ext_gen := if (pi s =? s)%nat then [One s] else if (s <? pi s)%nat then [make_gen (o s) s (pi s)] else [].
Lemma orbits_ok : orbits_of n pi orth (flat_map orbit_at (seq 0 n)).
Proof.
  assert (X : forall g, In g (flat_map orbit_at (seq 0 n)) <-> exists s, (s < n)%nat /\ In g (orbit_at s)).
  { intros g. rewrite in_flat_map. split; intros (s & H1 & H2); exists s; (split; [apply in_seq in H1 || apply in_seq; lia|exact H2]). }
  unfold orbits_of. split; [|split]; intros; rewrite X; unfold orbit_at.
  - split.
    + intros (u & Hu & I). destruct (Nat.eqb_spec (pi u) u) as [Q|Q]; [destruct I as [I|[]]; inversion I; subst; auto|]. destruct (u <? pi u)%nat; [|destruct I]. destruct I as [I|[]]. unfold make_gen in I. destruct (o u); discriminate.
    + intros (Hs & Q). exists s. split; [exact Hs|]. rewrite Q, Nat.eqb_refl. left. reflexivity.
  - split.
    + intros (u & Hu & I). destruct (Nat.eqb_spec (pi u) u) as [Q|Q]; [destruct I as [I|[]]; discriminate|]. destruct (Nat.ltb_spec u (pi u)) as [L|L]; [|destruct I]. destruct I as [I|[]]. unfold make_gen in I. destruct (o u) eqn:Eo; [|discriminate]. inversion I; subst. split; [exact Hu|]. split; [exact L|]. split; [reflexivity|]. apply Ho; assumption.
    + intros (Hs & L & <- & O). exists s. split; [exact Hs|]. replace (pi s =? s)%nat with false by (symmetry; apply Nat.eqb_neq; lia). apply Nat.ltb_lt in L. rewrite L. rewrite (proj2 (Ho s Hs) O). left. reflexivity.
  - split.
    + intros (u & Hu & I). destruct (Nat.eqb_spec (pi u) u) as [Q|Q]; [destruct I as [I|[]]; discriminate|]. destruct (Nat.ltb_spec u (pi u)) as [L|L]; [|destruct I]. destruct I as [I|[]]. unfold make_gen in I. destruct (o u) eqn:Eo; [discriminate|]. inversion I; subst. split; [exact Hu|]. split; [exact L|]. split; [reflexivity|]. intros O. apply (Ho s Hu) in O. congruence.
    + intros (Hs & L & <- & O). exists s. split; [exact Hs|]. replace (pi s =? s)%nat with false by (symmetry; apply Nat.eqb_neq; lia). apply Nat.ltb_lt in L. rewrite L. destruct (o s) eqn:Eo; [exfalso; apply O; apply Ho; assumption|]. left. reflexivity.
Qed.
Lemma orbits_cover : (forall s, (s < n)%nat -> pi (pi s) = s) -> Permutation (flat_map gens_of (flat_map orbit_at (seq 0 n))) (seq 0 n).
Proof.
  intros Inv. assert (W : forall k, (k <= n)%nat -> NoDup (flat_map gens_of (flat_map orbit_at (seq 0 k))) /\ forall x, In x (flat_map gens_of (flat_map orbit_at (seq 0 k))) -> (x < n)%nat /\ (x < k \/ pi x < k)%nat).
  { induction k as [|k IH]; intros Hk; [split; [constructor|intros x []]|]. destruct (IH ltac:(lia)) as [Nd Mm]. rewrite seq_S, !flat_map_app. cbn [flat_map Nat.add]. rewrite !app_nil_r.
    assert (Hpk : (pi k < n)%nat) by (apply range; lia). assert (Pk : pi (pi k) = k) by (apply Inv; lia).
    unfold orbit_at at 2 4. destruct (Nat.eqb_spec (pi k) k) as [Q|Q]; [|destruct (Nat.ltb_spec k (pi k)) as [L|L]].
    - cbn [flat_map gens_of app]. split.
      + apply NoDup_app_iff'. split; [exact Nd|]. split; [repeat constructor; auto|]. intros x Hx [<-|[]]. destruct (Mm _ Hx). lia.
      + intros x Hx. apply in_app_or in Hx. destruct Hx as [Hx|[<-|[]]]; [destruct (Mm x Hx); lia|lia].
    - assert (Eg : flat_map gens_of [make_gen (o k) k (pi k)] = [k; pi k]) by (unfold make_gen; destruct (o k); reflexivity). rewrite Eg. split.
      + apply NoDup_app_iff'. split; [exact Nd|]. split; [constructor; [intros [H|[]]; lia|repeat constructor; auto]|]. intros x Hx [<-|[<-|[]]]; destruct (Mm _ Hx); lia.
      + intros x Hx. apply in_app_or in Hx. destruct Hx as [Hx|[<-|[<-|[]]]]; [destruct (Mm x Hx); lia|lia|lia].
    - cbn [flat_map]. rewrite app_nil_r. split; [exact Nd|]. intros x Hx. destruct (Mm x Hx). lia. }
  destruct (W n (le_n n)) as [Nd Mm]. apply NoDup_Permutation; [exact Nd|apply seq_NoDup|]. intros x. rewrite in_seq. split; [intros H; destruct (Mm x H); lia|]. intros [_ Hx]. cbn in Hx.
  apply in_flat_map. destruct (lt_eq_lt_dec x (pi x)) as [[L|Q]|L].
  - exists (make_gen (o x) x (pi x)). split; [|unfold make_gen; destruct (o x); left; reflexivity]. apply in_flat_map. exists x. split; [apply in_seq; lia|]. unfold orbit_at. replace (pi x =? x)%nat with false by (symmetry; apply Nat.eqb_neq; lia). apply Nat.ltb_lt in L. rewrite L. left. reflexivity.
  - exists (One x). split; [|left; reflexivity]. apply in_flat_map. exists x. split; [apply in_seq; lia|]. unfold orbit_at. rewrite <- Q, Nat.eqb_refl. left. reflexivity.
  - pose proof (range x Hx) as Rx. pose proof (Inv x Hx) as Ix. exists (make_gen (o (pi x)) (pi x) x). split; [|unfold make_gen; destruct (o (pi x)); right; left; reflexivity]. apply in_flat_map. exists (pi x). split; [apply in_seq; lia|]. unfold orbit_at. rewrite Ix. replace (x =? pi x)%nat with false by (symmetry; apply Nat.eqb_neq; lia). apply Nat.ltb_lt in L. rewrite L. left. reflexivity.
Qed.
Lemma orbits_loop (body : nat -> list ext_gen -> res (list ext_gen)) (F : err -> Prop) : (forall s l, (s < n)%nat -> gives (body s l) (eq (l ++ orbit_at s)) F) ->
  gives (upto n 0 body []) (eq (flat_map orbit_at (seq 0 n))) F.
Proof.
  intros H. apply (gives_upto0 (fun k l => l = flat_map orbit_at (seq 0 k))); [reflexivity| |auto]. intros k l Hk ->. eapply gives_mono; [apply H; exact Hk|]. intros l' <-. rewrite seq_S, flat_map_app. cbn [flat_map Nat.add]. rewrite app_nil_r. reflexivity.
Qed.
End Orbits.

Lemma dot_plus r v w x : length v = r -> length w = r -> dot r (plus r v w) x = dot r v x + dot r w x.
Proof. intros. rewrite <- (away_plus r v w), dot_away by (try assumption; rewrite opp_length; assumption). rewrite dot_opp. lia. Qed.
Lemma dot_plus_r r v w x : length v = r -> length w = r -> dot r x (plus r v w) = dot r x v + dot r x w.
Proof. intros. rewrite dot_comm, dot_plus by assumption. rewrite (dot_comm r v), (dot_comm r w). reflexivity. Qed.
Lemma find_vec_none l : forall v k, find_vec l v k = (k + length l)%nat -> ~ In v l.
Proof.
  induction l as [|x l IH]; intros v k H; [intros []|]. cbn [find_vec length] in H. destruct (veqb x v) eqn:Q; [lia|]. intros [->|I].
  - assert (T : veqb v v = true) by (apply veqb_ok; reflexivity). congruence.
  - apply (IH v (S k)); [lia|exact I].
Qed.
Lemma find_vec_some l : forall v k, In v l -> exists i, find_vec l v k = (k + i)%nat /\ get l i = Some v.
Proof.
  induction l as [|x l IH]; intros v k H; [destruct H|]. cbn [find_vec]. destruct (veqb x v) eqn:Q.
  - exists 0%nat. apply veqb_ok in Q. subst x. split; [lia|reflexivity].
  - destruct H as [->|H]; [assert (T : veqb v v = true) by (apply veqb_ok; reflexivity); congruence|]. destruct (IH v (S k) H) as (i & E & G). exists (S i). split; [lia|exact G].
Qed.
Lemma find_vec_out l : forall v k, ~ In v l -> find_vec l v k = (k + length l)%nat.
Proof.
  induction l as [|x l IH]; intros v k I; [cbn; lia|]. cbn [find_vec length]. destruct (veqb x v) eqn:Qv; [exfalso; apply I; left; apply veqb_ok; exact Qv|].
  rewrite (IH v (S k)); [lia|]. intros J. apply I. right. exact J.
Qed.

Section Fold.
Variable fits : Z -> bool.
Notation R := (zarith fits).
Notation E := (overflows fits).
Variables (r n : nat) (A B : nat -> nat -> Z) (p : predatum) (d : datum).
Notation al := (fcol r A).
Notation be := (fcol r B).
Notation C := (fun i j => dot r (al i) (be j)).
Hypothesis K : datum_ok r n A B p d.
Notation s := (d_sys d).
Notation np := (num_pos (d_sys d)).
Notation emb := (comb r n al).
Notation coemb := (comb r n be).
Notation act := (act_by r al be).
Let gd : good n C. Proof. apply (k_good _ _ _ _ _ _ K). Qed.

Lemma perm_dot g pi i j : permutes_simple r n A B g pi -> (i < n)%nat -> (j < n)%nat -> dot r (al (pi i)) (be (pi j)) = dot r (al i) (be j).
Proof. intros H Hi Hj. destruct (H i Hi) as (_ & <- & _). apply (H j Hj). apply fcol_length. Qed.
Lemma simple_emb i : (i < n)%nat -> emb (root_at s (d_simple d i)) = al i /\ coemb (coroot_at s (d_simple d i)) = be i.
Proof. intros H. destruct (k_simple r n A B p d K i H) as (Q & E1 & E2). rewrite E1, E2, !comb_basis by (auto using fcol_length). auto. Qed.
Lemma orth_run a b : (a < num_roots s)%nat -> (b < num_roots s)%nat -> exists t, is_orthogonal s a b = Ok t /\ (t = true <-> dot r (emb (root_at s a)) (coemb (coroot_at s b)) = 0).
Proof.
  intros Ha Hb. destruct (k_sys _ _ _ _ _ _ K) as [c (n32 & ft & mc & made)]. destruct (top_orthogonal n C c _ s n32 ft mc made a b Ha Hb) as (t & Et & Ht). exists t. split; [exact Et|]. rewrite Ht, (dot_emb_coemb r n al be C) by reflexivity.
  destruct gd as (cl & (dd & fm) & _). apply (values_sign n C dd cl (proj1 fm) (proj1 (proj2 fm))); apply (k_at r n A B p d K); assumption.
Qed.
Lemma fold_orbits_run q g pi : is_mx q r r g -> permutes_simple r n A B g pi ->
  gives (fold_orbits fits d q) (fun l => orbits_of n pi (fun i j => dot r (al i) (be j) = 0) l /\ ((forall i, (i < n)%nat -> pi (pi i) = i) -> Permutation (flat_map gens_of l) (seq 0 n))) E.
Proof.
  intros Hq Hp. unfold fold_orbits. eapply gives_bind.
  { apply (rootPermutation_run r n A B p d K fits q g (fun i => d_simple d (pi i)) Hq).
    - intros i Hi. destruct (Hp i Hi) as (P1 & P2 & _). destruct (k_simple r n A B p d K _ P1) as (S1 & _). split; [exact S1|]. rewrite (proj1 (simple_emb _ P1)). exact P2.
    - intros i j Hi Hj. destruct (Hp i Hi) as (P1 & _). destruct (Hp j Hj) as (P2 & _). rewrite (proj1 (simple_emb _ P1)), (proj2 (simple_emb _ P2)). apply (perm_dot g pi i j Hp Hi Hj). }
  intros l (Ll & Hl). rewrite (k_ss r n A B p d K).
  set (o := fun i => match is_orthogonal s (d_simple d i) (d_simple d (pi i)) with Ok t => t | Fail _ => false end).
  assert (Ho : forall i, (i < n)%nat -> is_orthogonal s (d_simple d i) (d_simple d (pi i)) = Ok (o i) /\ (o i = true <-> dot r (al i) (be (pi i)) = 0)).
  { intros i Hi. destruct (Hp i Hi) as (P1 & _). destruct (k_simple r n A B p d K _ Hi) as (S1 & _), (k_simple r n A B p d K _ P1) as (S2 & _).
    destruct (orth_run _ _ S1 S2) as (t & Et & Ht). unfold o. rewrite Et. split; [reflexivity|]. rewrite Ht, (proj1 (simple_emb _ Hi)), (proj2 (simple_emb _ P1)). tauto. }
  eapply gives_mono; [apply (orbits_loop n pi o)|].
  - intros i l0 Hi. destruct (Hp i Hi) as (P1 & P2 & _). destruct (k_simple r n A B p d K _ Hi) as (S1 & _), (k_simple r n A B p d K _ P1) as (S2 & _).
    destruct (Hl _ S1) as (c & Gc & Hc & Ec). rewrite (vget_ok _ _ _ Gc). cbn [bind].
    assert (c = d_simple d (pi i)) as ->.
    { rewrite <- (root_index_run r n A B p d K c Hc), <- (root_index_run r n A B p d K _ S2), <- Ec. rewrite (proj1 (simple_emb _ Hi)), (proj1 (simple_emb _ P1)). f_equal. exact P2. }
    unfold orbit_at. change (d_simple d (pi i)) with (d_npos d + pi i)%nat at 1 2 3 5. change (d_simple d i) with (d_npos d + i)%nat at 1 2.
    replace (d_npos d + pi i =? d_npos d + i)%nat with (pi i =? i)%nat by (destruct (Nat.eqb_spec (pi i) i), (Nat.eqb_spec (d_npos d + pi i) (d_npos d + i)); lia || reflexivity).
    destruct (pi i =? i)%nat; [reflexivity|].
    replace (d_npos d + i <? d_npos d + pi i)%nat with (i <? pi i)%nat by (destruct (Nat.ltb_spec i (pi i)), (Nat.ltb_spec (d_npos d + i) (d_npos d + pi i)); lia || reflexivity).
    destruct (i <? pi i)%nat; [|cbn; rewrite app_nil_r; reflexivity].
    replace (d_npos d + pi i <? d_npos d + n)%nat with true by (symmetry; apply Nat.ltb_lt; lia).
    rewrite (proj1 (Ho i Hi)). cbn [bind]. replace (d_npos d + pi i - d_npos d)%nat with (pi i) by lia. reflexivity.
  - intros l0 <-. split.
    + apply orbits_ok. intros i Hi. apply (Ho i Hi).
    + intros Inv. apply orbits_cover; [|exact Inv]. intros i Hi. apply (Hp i Hi).
Qed.
(** ** orbits on a list of roots *)
Section In.
Variable L : list nat.
Hypothesis HL : Forall (fun a => (a < num_roots s)%nat) L.
Notation at_ k := (nth k L 0%nat).
Let alphas := map (fun a => emb (root_at s a)) L.
Lemma in_at k : (k < length L)%nat -> get L k = Some (at_ k) /\ (at_ k < num_roots s)%nat /\ get alphas k = Some (emb (root_at s (at_ k))).
Proof.
  intros Hk. destruct (get_some L k Hk) as [a Ga]. rewrite (get_nth_eq _ _ 0%nat _ Ga). split; [exact Ga|]. rewrite Forall_forall in HL. split; [apply HL; apply (get_In _ _ _ Ga)|].
  unfold alphas, get. rewrite nth_error_map. unfold get in Ga. rewrite Ga. reflexivity.
Qed.
Lemma fold_in_run q g : is_mx q r r g ->
  gives (fold_orbits_in fits d L q) (fun l => exists pi, (forall k, (k < length L)%nat -> (pi k < length L)%nat /\ image_by r g (emb (root_at s (at_ k))) = emb (root_at s (at_ (pi k)))) /\
      orbits_of (length L) pi (fun i j => dot r (emb (root_at s (at_ i))) (coemb (coroot_at s (at_ j))) = 0) l /\
      (NoDup L -> involutive r g -> Permutation (flat_map gens_of l) (seq 0 (length L))))
    (fun e => E e \/ e = Thrown /\ exists a, In a L /\ forall b, In b L -> image_by r g (emb (root_at s a)) <> emb (root_at s b)).
Proof.
  intros Hq. unfold fold_orbits_in. eapply gives_bind with (P := eq alphas).
  { apply (gives_upto0 (fun k l => l = firstn k alphas)); [reflexivity| |].
    - intros k l Hk ->. destruct (in_at k Hk) as (G1 & G2 & G3). rewrite (vget_ok _ _ _ G1). cbn [bind]. rewrite (proj1 (d_root_run r n A B p d K _ G2)). cbn. symmetry. apply firstn_get. exact G3.
    - intros l ->. symmetry. apply firstn_all2. unfold alphas. rewrite map_length. lia. }
  intros al0 <-. assert (La : length alphas = length L) by apply map_length.
  eapply gives_bind with (P := fun pi => length pi = length L /\ forall k, (k < length L)%nat -> (nth k pi 0 < length L)%nat /\ image_by r g (emb (root_at s (at_ k))) = emb (root_at s (at_ (nth k pi 0%nat)))).
  { apply (gives_upto0 (fun m pi => length pi = m /\ forall k, (k < m)%nat -> (nth k pi 0 < length L)%nat /\ image_by r g (emb (root_at s (at_ k))) = emb (root_at s (at_ (nth k pi 0%nat))))); [split; [reflexivity|intros; lia]| |auto].
    intros m pi Hm (Lp & Hp). destruct (in_at m Hm) as (G1 & G2 & G3). rewrite (vget_ok _ _ _ G3). cbn [bind].
    eapply gives_bind; [eapply gives_weaken; [apply (apply_run fits q r r g _ Hq); apply comb_length|intros x Hx; exact Hx|intros e He; left; exact He]|]. intros y <-. cbv zeta.
    fold (image_by r g (emb (root_at s (at_ m)))). destruct (Nat.eqb_spec (find_vec alphas (image_by r g (emb (root_at s (at_ m)))) 0) (length alphas)) as [Q|Q].
    - cbn. right. split; [reflexivity|]. exists (at_ m). split; [apply (get_In _ _ _ G1)|]. intros b Hb Eb. apply (find_vec_none _ _ 0 Q). rewrite Eb. unfold alphas. apply in_map_iff. exists b. split; [reflexivity|exact Hb].
    - cbn. split; [rewrite app_length; cbn; lia|]. intros k Hk. destruct (Nat.eq_dec k m) as [->|Nk]; [|rewrite app_nth1 by lia; apply Hp; lia].
      rewrite app_nth2, Lp, Nat.sub_diag by lia. cbn [nth].
      destruct (in_dec (list_eq_dec Z.eq_dec) (image_by r g (emb (root_at s (at_ m)))) alphas) as [I|I].
      + destruct (find_vec_some _ _ 0 I) as (i & Ei & Gi). rewrite Ei. cbn [Nat.add]. pose proof (get_lt _ _ _ Gi) as Hi. rewrite La in Hi. split; [exact Hi|]. destruct (in_at i Hi) as (_ & _ & Gi'). rewrite Gi' in Gi. injection Gi as Gi. symmetry. exact Gi.
      + exfalso. apply Q. apply (find_vec_out alphas _ 0 I). }
  intros pl (Lp & Hp). set (pi := fun k => nth k pl 0%nat).
  set (o := fun i => match is_orthogonal s (at_ i) (at_ (pi i)) with Ok t => t | Fail _ => false end).
  assert (Ho : forall i, (i < length L)%nat -> is_orthogonal s (at_ i) (at_ (pi i)) = Ok (o i) /\ (o i = true <-> dot r (emb (root_at s (at_ i))) (coemb (coroot_at s (at_ (pi i)))) = 0)).
  { intros i Hi. destruct (Hp i Hi) as (P1 & _). destruct (in_at _ Hi) as (_ & S1 & _), (in_at _ P1) as (_ & S2 & _).
    destruct (orth_run _ _ S1 S2) as (t & Et & Ht). unfold o, pi. rewrite Et. split; [reflexivity|]. exact Ht. }
  eapply gives_weaken; [|intros x Hx; exact Hx|intros e He; left; exact He].
  eapply gives_mono; [apply (orbits_loop (length L) pi o)|].
  - intros i l0 Hi. destruct (Hp i Hi) as (P1 & P2). fold (pi i) in P1, P2. destruct (in_at _ Hi) as (S1 & S1' & _), (in_at _ P1) as (S2 & S2' & _).
    destruct (get_some pl i ltac:(lia)) as [t Gt]. rewrite (vget_ok _ _ _ Gt). cbn [bind]. assert (t = pi i) as -> by (unfold pi; rewrite (get_nth_eq _ _ 0%nat _ Gt); reflexivity).
    unfold orbit_at. destruct (pi i =? i)%nat; [reflexivity|]. destruct (i <? pi i)%nat; [|cbn; rewrite app_nil_r; reflexivity].
    rewrite (vget_ok _ _ _ S1), (vget_ok _ _ _ S2). cbn [bind]. rewrite (proj1 (Ho i Hi)). cbn. reflexivity.
  - intros l0 <-. exists pi. split; [exact Hp|]. split.
    + apply orbits_ok. intros i Hi. apply (Ho i Hi).
    + intros Nd Inv. apply orbits_cover; [intros i Hi; apply (Hp i Hi)|]. intros i Hi. destruct (Hp i Hi) as (P1 & P2). destruct (Hp _ P1) as (P3 & P4). fold (pi i) in P1, P2, P3, P4. fold (pi (pi i)) in P3, P4.
      rewrite <- P2, Inv in P4 by apply comb_length.
      destruct (in_at _ Hi) as (S1 & S1' & _), (in_at _ P3) as (S2 & S2' & _).
      assert (Q : at_ (pi (pi i)) = at_ i) by (rewrite <- (root_index_run r n A B p d K _ S1'), <- (root_index_run r n A B p d K _ S2'), P4; reflexivity).
      apply (proj1 (NoDup_nth L 0%nat) Nd); assumption.
Qed.
End In.
(** ** folding *)
Lemma cofold_run l : Forall (fun x => Forall (fun i => (i < n)%nat) (gens_of x)) l ->
  gives (cofold_pre fits d l) (fun q => p_prefer q = p_prefer p /\
    is_mx (p_roots q) r (length l) (fun i j => co (orbit_root r al (nth j l (One 0))) i) /\ is_mx (p_coroots q) r (length l) (fun i j => co (orbit_coroot r be (nth j l (One 0))) i)) E.
Proof.
  intros Hl. unfold cofold_pre. cbv zeta. rewrite (k_rank _ _ _ _ _ _ K).
  eapply gives_bind with (P := fun '(M, N) => is_mx M r (length l) (fun i j => co (orbit_root r al (nth j l (One 0))) i) /\ is_mx N r (length l) (fun i j => co (orbit_coroot r be (nth j l (One 0))) i)).
  2:{ intros [M N] [HM HN]. apply gives_ok. split; [apply (k_prefer r n A B p d K)|]. split; assumption. }
  apply (gives_upto0 (fun t '(M, N) => exists f h, is_mx M r (length l) f /\ is_mx N r (length l) h /\ forall i j, (j < t)%nat -> f i j = co (orbit_root r al (nth j l (One 0))) i /\ h i j = co (orbit_coroot r be (nth j l (One 0))) i)).
  - exists (fun _ _ => 0), (fun _ _ => 0). split; [apply fill_ok|]. split; [apply fill_ok|]. intros; lia.
  - intros t [M N] Ht (f & h & HM & HN & Q). destruct (get_some l t Ht) as [x Gx]. rewrite (vget_ok _ _ _ Gx). cbn [bind].
    assert (Ix : Forall (fun i => (i < n)%nat) (gens_of x)) by (rewrite Forall_forall in Hl; apply Hl; apply (get_In _ _ _ Gx)). assert (Nx : nth t l (One 0) = x) by (apply get_nth_eq; exact Gx).
    eapply gives_bind with (P := fun xy => fst xy = orbit_root r al x /\ snd xy = orbit_coroot r be x).
    { destruct x as [a|a b|a b]; cbn [gens_of] in Ix; pose proof (Forall_inv Ix) as Ha; cbn beta in Ha; destruct (d_simple_run r n A B p d K a Ha) as [D1 D2].
      - rewrite D1, D2. cbn. split; reflexivity.
      - pose proof (Forall_inv (Forall_inv_tail Ix)) as Hb; cbn beta in Hb; destruct (d_simple_run r n A B p d K b Hb) as [D3 D4]. rewrite D1, D2, D3. cbn [bind].
        eapply gives_bind; [apply (add_run fits r); apply fcol_length|]. intros z <-. cbn. split; reflexivity.
      - pose proof (Forall_inv (Forall_inv_tail Ix)) as Hb; cbn beta in Hb; destruct (d_simple_run r n A B p d K b Hb) as [D3 D4]. rewrite D1, D2, D3, D4. cbn [bind].
        eapply gives_bind; [apply (add_run fits r); apply fcol_length|]. intros u <-. eapply gives_bind; [apply (add_run fits r); apply fcol_length|]. intros z <-. cbn. split; reflexivity. }
    intros xy (E1 & E2). rewrite E1, E2.
    assert (L1 : length (orbit_root r al x) = r /\ length (orbit_coroot r be x) = r) by (destruct x; cbn; rewrite ?plus_length, ?fcol_length; auto).
    eapply gives_bind; [apply (set_column_ok M r (length l) f t _ (co (orbit_root r al x)) HM Ht); apply vec_self, L1|]. intros M1 HM1.
    eapply gives_bind; [apply (set_column_ok N r (length l) h t _ (co (orbit_coroot r be x)) HN Ht); apply vec_self, L1|]. intros N1 HN1. apply gives_ok.
    eexists _, _. split; [exact HM1|]. split; [exact HN1|]. intros i j Hj. cbv beta. destruct (Nat.eqb_spec j t) as [->|Nt]; [rewrite Nx; auto|]. apply Q. lia.
  - intros [M N] (f & h & HM & HN & Q). split; (eapply is_mx_ext; [eassumption|]; intros i j Hi Hj; apply (Q i j Hj)).
Qed.
Section Math.
Variables (g : nat -> nat -> Z) (pi : nat -> nat) (l : list ext_gen).
Hypothesis Hp : permutes_simple r n A B g pi.
Hypothesis Inv : forall i, (i < n)%nat -> pi (pi i) = i.
Hypothesis Ol : orbits_of n pi (fun i j => dot r (al i) (be j) = 0) l.
Let La i : length (al i) = r. Proof. apply fcol_length. Qed.
Let Lb i : length (be i) = r. Proof. apply fcol_length. Qed.
Lemma orbit_gens x : In x l -> Forall (fun i => (i < n)%nat) (gens_of x).
Proof.
  intros I. destruct Ol as (O1 & O2 & O3). destruct x as [a|a b|a b].
  - destruct (proj1 (O1 a) I) as (Ha & _). repeat constructor. exact Ha.
  - destruct (proj1 (O2 a b) I) as (Ha & _ & <- & _). repeat constructor; [exact Ha|apply Hp; exact Ha].
  - destruct (proj1 (O3 a b) I) as (Ha & _ & <- & _). repeat constructor; [exact Ha|apply Hp; exact Ha].
Qed.
(** the pairings in an orbit of two *)
Lemma orbit_two a b : In (Two a b) l -> (a < n)%nat /\ (b < n)%nat /\ a <> b /\ pi a = b /\ pi b = a /\ dot r (al a) (be b) = 0 /\ dot r (al b) (be a) = 0.
Proof.
  intros I. destruct Ol as (O1 & O2 & O3). destruct (proj1 (O2 a b) I) as (Ha & Lt & <- & O). pose proof (proj1 (Hp a Ha)) as Hb. pose proof (Inv a Ha). split; [exact Ha|]. split; [exact Hb|]. split; [lia|]. split; [reflexivity|]. split; [exact H|]. split; [exact O|].
  apply (proj1 gd); assumption.
Qed.
Lemma orbit_three a b : In (Three a b) l -> (a < n)%nat /\ (b < n)%nat /\ a <> b /\ pi a = b /\ pi b = a /\ dot r (al a) (be b) = -1 /\ dot r (al b) (be a) = -1.
Proof.
  intros I. destruct Ol as (O1 & O2 & O3). destruct (proj1 (O3 a b) I) as (Ha & Lt & Eb & O). pose proof (proj1 (Hp a Ha)) as Hb. pose proof (Inv a Ha) as Ia. rewrite Eb in Hb, Ia. split; [exact Ha|]. split; [exact Hb|]. split; [lia|]. split; [exact Eb|]. split; [exact Ia|].
  pose proof (perm_dot g pi a b Hp Ha Hb) as Q. rewrite Eb, Ia in Q. destruct gd as (cl & (dd & fm) & _).
  pose proof (small_products n C dd cl (proj1 fm) (proj1 (proj2 fm)) (proj2 (proj2 fm)) a b Ha Hb ltac:(lia)) as S. cbv beta in S. rewrite Q in S |- *.
  pose proof (proj1 (proj2 cl) a b Ha Hb ltac:(lia)) as N. cbv beta in N. set (z := dot r (al a) (be b)) in *. assert (z = -1) by nia. auto.
Qed.
Lemma orbit_diagonal x : In x l -> dot r (orbit_root r al x) (orbit_coroot r be x) = 2.
Proof.
  intros I. pose proof (orbit_gens x I) as G. destruct x as [a|a b|a b]; cbn [orbit_root orbit_coroot gens_of] in *; pose proof (Forall_inv G) as Ha; cbn beta in Ha.
  - apply (proj1 gd); exact Ha.
  - destruct (orbit_two a b I) as (_ & Hb & _ & _ & _ & E1 & E2). rewrite dot_plus by auto. rewrite E2. pose proof (proj1 (proj1 gd) a Ha) as D. cbv beta in D. lia.
  - destruct (orbit_three a b I) as (_ & Hb & _ & _ & _ & E1 & E2). rewrite dot_plus, !dot_plus_r by auto. rewrite E1, E2. pose proof (proj1 (proj1 gd) a Ha) as D. pose proof (proj1 (proj1 gd) b Hb) as D'. cbv beta in D, D'. lia.
Qed.
Lemma orbit_apart x y i j : In x l -> In y l -> x <> y -> In i (gens_of x) -> In j (gens_of y) -> i <> j.
Proof.
  intros Ix Iy Ne Hi Hj ->. apply Ne. destruct Ol as (O1 & O2 & O3).
    destruct x as [a|a b|a b], y as [a'|a' b'|a' b']; cbn [gens_of] in Hi, Hj;
      repeat match goal with
      | H : In (One ?u) l |- _ => apply (proj1 (O1 _)) in H; destruct H as (? & ?)
      | H : In (Two ?u ?v) l |- _ => let G := fresh in pose proof (orbit_two _ _ H) as G; apply (proj1 (O2 _ _)) in H; destruct H as (? & ? & ? & ?); destruct G as (? & ? & ? & ? & ? & ? & ?)
      | H : In (Three ?u ?v) l |- _ => let G := fresh in pose proof (orbit_three _ _ H) as G; apply (proj1 (O3 _ _)) in H; destruct H as (? & ? & ? & ?); destruct G as (? & ? & ? & ? & ? & ? & ?)
      end;
      repeat match goal with H : In _ [_] |- _ => destruct H as [H|[]] | H : In _ [_; _] |- _ => destruct H as [H|[H|[]]] end; subst;
      try reflexivity; try (exfalso; congruence); try (exfalso; lia); try (f_equal; congruence).
Qed.
Lemma orbit_away x y : In x l -> In y l -> x <> y -> dot r (orbit_root r al x) (orbit_coroot r be y) <= 0.
Proof.
  intros Ix Iy Ne. pose proof (orbit_gens x Ix) as Gx. pose proof (orbit_gens y Iy) as Gy.
  assert (N : forall i j, In i (gens_of x) -> In j (gens_of y) -> dot r (al i) (be j) <= 0).
  { intros i j Hi Hj. rewrite Forall_forall in Gx, Gy. apply (proj1 (proj2 (proj1 gd))); [apply Gx; exact Hi|apply Gy; exact Hj|apply (orbit_apart x y); assumption]. }
  destruct x as [a|a b|a b], y as [a'|a' b'|a' b']; cbn [orbit_root orbit_coroot gens_of In] in *; rewrite ?dot_plus, ?dot_plus_r by auto;
    repeat match goal with |- context [dot r (al ?i) (be ?j)] => let G := fresh in pose proof (N i j ltac:(tauto) ltac:(tauto)) as G; generalize dependent (dot r (al i) (be j)); intros end; lia.
Qed.
Lemma orbit_closed x i : In x l -> In i (gens_of x) -> In (pi i) (gens_of x).
Proof.
  intros I Hi. destruct x as [a|a b|a b]; cbn [gens_of In] in *.
  - destruct Hi as [<-|[]]. left. destruct Ol as (O1 & _). symmetry. apply (O1 a). exact I.
  - destruct (orbit_two a b I) as (_ & _ & _ & E1 & E2 & _). destruct Hi as [<-|[<-|[]]]; rewrite ?E1, ?E2; auto.
  - destruct (orbit_three a b I) as (_ & _ & _ & E1 & E2 & _). destruct Hi as [<-|[<-|[]]]; rewrite ?E1, ?E2; auto.
Qed.
Lemma orbit_zero x y : In x l -> In y l -> x <> y -> dot r (orbit_root r al x) (orbit_coroot r be y) = 0 -> dot r (orbit_root r al y) (orbit_coroot r be x) = 0.
Proof.
  intros Ix Iy Ne Z0. pose proof (orbit_gens x Ix) as Gx. pose proof (orbit_gens y Iy) as Gy.
  assert (N : forall i j, In i (gens_of x) -> In j (gens_of y) -> dot r (al i) (be j) <= 0).
  { intros i j Hi Hj. rewrite Forall_forall in Gx, Gy. apply (proj1 (proj2 (proj1 gd))); [apply Gx; exact Hi|apply Gy; exact Hj|apply (orbit_apart x y); assumption]. }
  assert (T : forall i j, In i (gens_of x) -> In j (gens_of y) -> dot r (al i) (be j) = 0 -> dot r (al (pi i)) (be (pi j)) = 0).
  { intros i j Hi Hj Q. rewrite Forall_forall in Gx, Gy. rewrite (perm_dot g pi i j Hp (Gx i Hi) (Gy j Hj)). exact Q. }
  assert (S : forall i j, In i (gens_of x) -> In j (gens_of y) -> dot r (al i) (be j) = 0).
  { assert (S1 : forall i, In i (gens_of x) -> dot r (al i) (be (hd 0%nat (gens_of y))) = 0).
    { clear T. destruct x as [a|a b|a b], y as [a'|a' b'|a' b']; cbn [orbit_root orbit_coroot gens_of In hd] in *; rewrite ?dot_plus, ?dot_plus_r in Z0 by auto; intros i Hi;
        [pose proof (N a a')|pose proof (N a a')|pose proof (N a a'); pose proof (N a b')|
         pose proof (N a a'); pose proof (N b a')|pose proof (N a a'); pose proof (N b a')|pose proof (N a a'); pose proof (N a b'); pose proof (N b a'); pose proof (N b b')|
         pose proof (N a a'); pose proof (N b a')|pose proof (N a a'); pose proof (N b a')|pose proof (N a a'); pose proof (N a b'); pose proof (N b a'); pose proof (N b b')];
        repeat match goal with H : In _ _ -> _ |- _ => specialize (H ltac:(tauto)) | H : _ \/ _ -> _ |- _ => specialize (H ltac:(tauto)) end;
        repeat match goal with H : _ \/ _ |- _ => destruct H as [H|H] | H : False |- _ => destruct H end; subst; lia. }
    intros i j Hi Hj. destruct (Nat.eq_dec j (hd 0%nat (gens_of y))) as [->|Q]; [apply S1; exact Hi|].
    assert (P : pi (hd 0%nat (gens_of y)) = j /\ pi (pi i) = i).
    { split; [|apply Inv; rewrite Forall_forall in Gx; apply Gx; exact Hi]. destruct y as [a'|a' b'|a' b']; cbn [gens_of hd In] in *.
      - destruct Hj as [Hj|[]]. congruence.
      - destruct (orbit_two a' b' Iy) as (_ & _ & _ & E1 & _). rewrite E1. destruct Hj as [Hj|[Hj|[]]]; congruence.
      - destruct (orbit_three a' b' Iy) as (_ & _ & _ & E1 & _). rewrite E1. destruct Hj as [Hj|[Hj|[]]]; congruence. }
    destruct P as [<- <-]. pose proof (orbit_closed x i Ix Hi) as Hi'. apply T; [exact Hi'| |apply S1; exact Hi'].
    destruct y; left; reflexivity. }
  assert (S' : forall i j, In i (gens_of x) -> In j (gens_of y) -> dot r (al j) (be i) = 0).
  { intros i j Hi Hj. rewrite Forall_forall in Gx, Gy. apply (proj2 (proj2 (proj1 gd))); [apply Gx; exact Hi|apply Gy; exact Hj|apply S; assumption]. }
  destruct x as [a|a b|a b], y as [a'|a' b'|a' b']; cbn [orbit_root orbit_coroot gens_of In] in *; rewrite ?dot_plus, ?dot_plus_r by auto; rewrite !S' by tauto; reflexivity.
Qed.
(** the sum of the roots is fixed *)
Lemma image_plus v w : length v = r -> length w = r -> image_by r g (plus r v w) = plus r (image_by r g v) (image_by r g w).
Proof. intros. rewrite <- !away_plus, image_away by (try assumption; rewrite opp_length; assumption). rewrite image_opp. reflexivity. Qed.
Lemma plus_comm v w : plus r v w = plus r w v.
Proof. unfold plus. apply map_ext. intros k. lia. Qed.
Lemma orbit_fixed x : In x l -> image_by r g (orbit_root r al x) = orbit_root r al x.
Proof.
  intros I. pose proof (orbit_gens x I) as G. destruct x as [a|a b|a b]; cbn [orbit_root gens_of] in *; pose proof (Forall_inv G) as Ha; cbn beta in Ha.
  - destruct (Hp a Ha) as (_ & -> & _). destruct Ol as (O1 & _). destruct (proj1 (O1 a) I) as (_ & ->). reflexivity.
  - destruct (orbit_two a b I) as (_ & Hb & _ & E1 & E2 & _). rewrite image_plus by auto. destruct (Hp a Ha) as (_ & -> & _), (Hp b Hb) as (_ & -> & _). rewrite E1, E2. apply plus_comm.
  - destruct (orbit_three a b I) as (_ & Hb & _ & E1 & E2 & _). rewrite image_plus by auto. destruct (Hp a Ha) as (_ & -> & _), (Hp b Hb) as (_ & -> & _). rewrite E1, E2. apply plus_comm.
Qed.
(** on fixed weights its reflection is the longest element of the orbit *)
Lemma orbit_reflection x v : In x l -> length v = r -> image_by r g v = v -> reflect_at r (orbit_root r al x) (orbit_coroot r be x) v = act (word_of x) v.
Proof.
  intros I Hv Fx. pose proof (orbit_gens x I) as G.
  assert (S : forall i, (i < n)%nat -> dot r v (be (pi i)) = dot r v (be i)) by (intros i Hi; rewrite <- Fx at 1; apply (Hp i Hi); exact Hv).
  destruct x as [a|a b|a b]; cbn [orbit_root orbit_coroot gens_of word_of act_by fold_right] in *; pose proof (Forall_inv G) as Ha; cbn beta in Ha; [reflexivity|..].
  - destruct (orbit_two a b I) as (_ & Hb & _ & E1 & _ & F1 & F2). pose proof (S a Ha) as Sa. rewrite E1 in Sa.
    unfold reflect_at. rewrite dot_away by auto. rewrite F2, Sa.
    apply vec_ext; [rewrite !away_length; reflexivity|]. intros k Hk. rewrite !co_away, co_plus by (rewrite ?away_length, ?plus_length; auto). lia.
  - destruct (orbit_three a b I) as (_ & Hb & _ & E1 & _ & F1 & F2). pose proof (S a Ha) as Sa. rewrite E1 in Sa.
    unfold reflect_at. pose proof (proj1 (proj1 gd) a Ha) as D. cbv beta in D. rewrite !dot_away, dot_plus_r by (rewrite ?away_length; auto). rewrite F1, F2, D, Sa.
    apply vec_ext; [rewrite !away_length; reflexivity|]. intros k Hk. rewrite !co_away, co_plus by (rewrite ?away_length, ?plus_length; auto). lia.
Qed.
End Math.
End Fold.
