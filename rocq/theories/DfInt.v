(** Proofs about integrality of rational weights, singular generators, dominance. *)

From Coq Require Import List Arith ZArith Bool Lia Sorted.
From Verif Require Import VecModel VecProofs RunModel RunProofs MatModel MatSpec MatLin MatRing MatProofs LatModel LieTypeSpec RootModel RootSpec RootMath RootForm RootFin RootBase RootAcc RootUniq RootTop RootProps
  RsfBase DatModel DatSpec DatMath DatProofs DatOps DatFactor DfModel DfMath.
Import ListNotations.
Local Open Scope Z_scope.

Lemma nth_mapseq (f : nat -> bool) k a : (a < k)%nat -> nth a (map f (seq 0 k)) false = f a.
Proof. intros H. rewrite (nth_indep _ false (f 0%nat)) by (rewrite map_length, seq_length; exact H). rewrite map_nth, seq_nth by exact H. reflexivity. Qed.

Section Int.
Variable fits : Z -> bool.
Notation R := (zarith fits).
Notation E := (overflows fits).
Variables (r n : nat) (A B : nat -> nat -> Z) (p : predatum) (d : datum).
Notation al := (fcol r A).
Notation be := (fcol r B).
Notation C := (fun i j => dot r (al i) (be j)).
Hypothesis K : datum_ok r n A B p d.
Notation s := (d_sys d).
Notation np := (num_pos (d_sys d)).
Notation emb := (comb r n al).
Notation coemb := (comb r n be).
Variables (v : list Z) (dn : Z).
Hypothesis Lv : length v = r.
Hypothesis dpos : 0 < dn.
(** the value of the weight on the coroot number [a] *)
Notation val a := (dot r v (coemb (coroot_at s a))).
Lemma num2 : num_roots s = (2 * np)%nat. Proof. reflexivity. Qed.
Lemma pos_dot i : (i < np)%nat -> gives (run y <- d_coroot d (pos_nr (d_npos d) i); vec_dot R y v) (eq (val (np + i)%nat)) E.
Proof.
  intros Hi. unfold pos_nr, d_npos. rewrite (proj2 (d_root_run _ _ _ _ _ _ K (np + i)%nat ltac:(unfold num_roots; lia))). cbn [bind].
  eapply gives_mono; [apply (dot_run fits r); [apply comb_length|exact Lv]|]. intros x <-. apply dot_comm.
Qed.
Lemma simple_dot i : (i < n)%nat -> gives (run y <- d_coroot d (d_simple d i); vec_dot R y v) (eq (dot r v (be i))) E.
Proof.
  intros Hi. rewrite (proj2 (d_simple_run _ _ _ _ _ _ K i Hi)). cbn [bind]. eapply gives_mono; [apply (dot_run fits r); [apply fcol_length|exact Lv]|]. intros x <-. apply dot_comm.
Qed.
Lemma gives_split {T U V} (m : res T) (k : T -> res U) (h : U -> res V) (P : U -> Prop) (Q : V -> Prop) (F : err -> Prop) :
  gives (run x <- m; k x) P F -> (forall y, P y -> gives (h y) Q F) -> gives (run x <- m; run y <- k x; h y) Q F.
Proof. intros H G. destruct m as [x|e]; cbn in *; [|exact H]. destruct (k x) as [y|e]; cbn in *; [apply G; exact H|exact H]. Qed.
Lemma rem_divide c : (Z.rem c dn =? 0) = true <-> (dn | c).
Proof. rewrite Z.eqb_eq. rewrite Z.rem_divide by lia. reflexivity. Qed.
Lemma poscoroots_run : gives (integrality_poscoroots fits d v dn) (fun ps => length ps = np /\ forall i, (i < np)%nat -> (bmem ps i = true <-> (dn | val (np + i)%nat))) E.
Proof.
  unfold integrality_poscoroots. change (d_npos d) with np at 1.
  apply (gives_upto0 (fun k ps => length ps = k /\ forall i, (i < k)%nat -> (bmem ps i = true <-> (dn | val (np + i)%nat)))).
  - split; [reflexivity|]. intros; lia.
  - intros k ps Hk (Lp & Hp). eapply gives_split; [apply (pos_dot k Hk)|]. intros c <-. replace (dn =? 0) with false by (symmetry; apply Z.eqb_neq; lia). apply gives_ok. split; [rewrite app_length, Lp; cbn; lia|].
    intros i Hi. unfold bmem in *. destruct (Nat.eq_dec i k) as [->|Q]; [rewrite app_nth2 by lia; rewrite Lp, Nat.sub_diag; cbn [nth]; apply rem_divide|rewrite app_nth1 by lia; apply Hp; lia].
  - intros ps H. exact H.
Qed.
(** the set of all integral roots *)
Definition integrals : bset := map (fun a => Z.rem (val a) dn =? 0) (seq 0 (num_roots s)).
Lemma integrals_in a : bmem integrals a = true <-> (a < num_roots s)%nat /\ (dn | val a).
Proof.
  unfold integrals, bmem. destruct (le_lt_dec (num_roots s) a) as [Q|Q].
  - rewrite nth_overflow by (rewrite map_length, seq_length; exact Q). split; [discriminate|lia].
  - rewrite nth_mapseq by exact Q. rewrite rem_divide. tauto.
Qed.
Lemma integrals_length : length integrals = num_roots s. Proof. unfold integrals. rewrite map_length, seq_length. reflexivity. Qed.
Lemma reflect_num a b c : (a < num_roots s)%nat -> (b < num_roots s)%nat -> reflected s a b = Ok c -> (c < num_roots s)%nat /\
  coroot_at s c = away n (coroot_at s b) (value n C (root_at s a) (coroot_at s b)) (coroot_at s a).
Proof.
  destruct (k_sys _ _ _ _ _ _ K) as [cm (n32 & ft & mc & made)]. intros Ha Hb Er. destruct (top_reflected n C cm _ s n32 ft mc made a b Ha Hb) as (x & Ex & Hx & E1 & E2). rewrite Er in Ex. inversion Ex; subst x. split; [exact Hx|].
  rewrite E2. unfold reflect. f_equal. apply value_flip.
Qed.
Lemma integrals_closed a b c : bmem integrals a = true -> bmem integrals b = true -> reflected s a b = Ok c -> bmem integrals c = true.
Proof.
  rewrite !integrals_in. intros [Ha Da] [Hb Db] Er. destruct (reflect_num a b c Ha Hb Er) as [Hc Ec]. split; [exact Hc|]. rewrite Ec.
  pose proof (k_at _ _ _ _ _ _ K a Ha) as Ra. pose proof (k_at _ _ _ _ _ _ K b Hb) as Rb.
  rewrite comb_away by (eapply proj2, root_coroot_length; eassumption). rewrite dot_away_r by apply comb_length. apply Z.divide_sub_r; [exact Db|apply Z.divide_mul_r; exact Da].
Qed.
Lemma simples_run : gives (integrality_simples fits d v dn) (fun l => simple_basis s integrals = Ok l) E.
Proof.
  unfold integrality_simples. eapply gives_bind; [apply poscoroots_run|]. intros ps (Lp & Hp).
  assert (Es : simple_basis s (repeat false (d_npos d) ++ ps) = simple_basis s integrals).
  { unfold simple_basis. cbv zeta. assert (Q : skipn np (repeat false (d_npos d) ++ ps) = skipn np integrals).
    { change (d_npos d) with np. rewrite skipn_app, repeat_length, Nat.sub_diag, skipn_all2 by (rewrite repeat_length; lia). cbn [app skipn].
      apply nth_ext with (d := false) (d' := false); [rewrite skipn_length, integrals_length, num2; lia|]. intros i Hi. rewrite Lp in Hi. rewrite skip_nth. specialize (Hp i Hi). pose proof (integrals_in (np + i)) as J. unfold bmem in *.
      apply eq_true_iff_eq. rewrite Hp, J. split; [intros X; split; [rewrite num2; lia|exact X]|tauto]. }
    rewrite Q. reflexivity. }
  rewrite Es. destruct (k_sys _ _ _ _ _ _ K) as [cm Bt]. destruct (C103_basis n C cm _ s integrals Bt integrals_length integrals_closed) as (l & El & _). rewrite El. apply gives_ok. reflexivity.
Qed.
Lemma simples_spec : gives (integrality_simples fits d v dn) (fun l => StronglySorted lt l /\
  (forall a, In a l <-> (np <= a < num_roots s)%nat /\ (dn | val a) /\ ~ exists b c, (np <= b < num_roots s)%nat /\ (dn | val b) /\ (np <= c < num_roots s)%nat /\ (dn | val c) /\ root_at s a = plus n (root_at s b) (root_at s c)) /\
  (forall a, (np <= a < num_roots s)%nat -> (dn | val a) -> exists ms, incl ms l /\ root_at s a = vsum n (map (root_at s) ms)) /\
  (forall a b, In a l -> In b l -> a <> b -> value n C (root_at s a) (coroot_at s b) <= 0)) E.
Proof.
  eapply gives_mono; [apply simples_run|]. intros l El. destruct (k_sys _ _ _ _ _ _ K) as [cm Bt].
  destruct (C103_basis n C cm _ s integrals Bt integrals_length integrals_closed) as (l1 & E1 & So & I1). destruct (C103_generate n C cm _ s integrals Bt integrals_length integrals_closed) as (l2 & E2 & G & N).
  rewrite El in E1, E2. inversion E1; subst l1. inversion E2; subst l2. split; [exact So|]. split; [|split].
  - intros a. rewrite I1, integrals_in. split.
    + intros ((Ha & Da) & Hp & X). split; [lia|]. split; [exact Da|]. intros (b & c & Hb & Db & Hc & Dc & S). apply X. exists b, c. rewrite !integrals_in. repeat (split; [first [lia|assumption|split; [lia|assumption]]|]). exact S.
    + intros (Ha & Da & X). split; [split; [lia|exact Da]|]. split; [lia|]. intros (b & c & Mb & Hb & Mc & Hc & S). apply X. apply integrals_in in Mb. apply integrals_in in Mc. exists b, c. split; [lia|]. split; [apply Mb|]. split; [lia|]. split; [apply Mc|exact S].
  - intros a Ha Da. apply G; [apply integrals_in; split; [lia|exact Da]|lia].
  - exact N.
Qed.

(** ** singular generators and dominance *)
Lemma singular_run : gives (singular_generators fits d v) (fun ps => length ps = n /\ forall i, (i < n)%nat -> (bmem ps i = true <-> dot r v (be i) = 0)) E.
Proof.
  unfold singular_generators. rewrite (k_ss _ _ _ _ _ _ K).
  apply (gives_upto0 (fun k ps => length ps = k /\ forall i, (i < k)%nat -> (bmem ps i = true <-> dot r v (be i) = 0))).
  - split; [reflexivity|]. intros; lia.
  - intros k ps Hk (Lp & Hp). eapply gives_split; [apply (simple_dot k Hk)|]. intros c <-. apply gives_ok. split; [rewrite app_length, Lp; cbn; lia|].
    intros i Hi. unfold bmem in *. destruct (Nat.eq_dec i k) as [->|Q]; [rewrite app_nth2 by lia; rewrite Lp, Nat.sub_diag; cbn [nth]; apply Z.eqb_eq|rewrite app_nth1 by lia; apply Hp; lia].
  - intros ps H. exact H.
Qed.
Lemma first_gives (test : nat -> res bool) (P : nat -> Prop) (F : err -> Prop) m : (forall k, (k < m)%nat -> gives (test k) (fun t => t = true <-> P k) F) -> forall q k, (k + q = m)%nat -> 
  gives (first_such test q k) (fun o => match o with Some i => (k <= i < m)%nat /\ P i | None => forall i, (k <= i < m)%nat -> ~ P i end) F.
Proof.
  intros H. induction q as [|q IH]; intros k Hk; cbn [first_such]; [apply gives_ok; intros; lia|].
  eapply gives_bind; [apply H; lia|]. intros [|] Ht; [apply gives_ok; split; [lia|apply Ht; reflexivity]|].
  eapply gives_mono; [apply (IH (S k)); lia|]. intros [i|]; [intros [a b]; split; [lia|exact b]|]. intros Hn i Hi. destruct (Nat.eq_dec i k) as [->|Q]; [intros X; apply Ht in X; discriminate|apply Hn; lia].
Qed.
Lemma dominant_run : gives (is_dominant_ratweight fits d v) (fun t => t = true <-> dominant r n be v) E.
Proof.
  unfold is_dominant_ratweight. rewrite (k_ss _ _ _ _ _ _ K). eapply gives_bind.
  - apply (first_gives _ (fun i => dot r v (be i) < 0) E n); [|lia]. intros k Hk. eapply gives_split; [apply (simple_dot k Hk)|]. intros c <-. apply gives_ok. apply Z.ltb_lt.
  - intros [i|] H; apply gives_ok; cbn beta; unfold dominant.
    + split; [discriminate|]. intros X. specialize (X i ltac:(lia)). lia.
    + split; [|reflexivity]. intros _ i Hi. specialize (H i ltac:(lia)). lia.
Qed.
End Int.
