(** Data read back from a root datum, the dual datum, data of subsystems, permutations of the roots. *)

From Coq Require Import List Arith ZArith Bool Lia.
From Verif Require Import VecModel VecProofs RunModel RunProofs MatModel MatSpec MatProofs MatLin MatOps MatProps
  LieTypeModel LieTypeSpec LieTypeProofs RootModel RootSpec RootBase RootMath RootForm RootFin RootCo RootAcc RootSys RootUniq RootExt RootTop RootProps DatModel DatSpec DatMath DatProofs DatOps DatMats DatSub DatFund.
Import ListNotations.
Local Open Scope Z_scope.

Lemma finite_ext n f g : (forall i j, (i < n)%nat -> (j < n)%nat -> f i j = g i j) -> finite_type n f -> finite_type n g.
Proof.
  intros H (lt & pi & V & S & T & P & Q). exists lt, pi. split; [exact V|]. split; [exact S|]. split; [exact T|]. split; [exact P|]. intros i j Hi Hj. rewrite <- Q by assumption. symmetry.
  assert (G : forall k, (k < n)%nat -> (nth k pi 0 < n)%nat).
  { intros k Hk. assert (I : In (nth k pi 0%nat) pi) by (apply nth_In; rewrite (Permutation.Permutation_length P), seq_length; exact Hk). apply (Permutation.Permutation_in _ P) in I. apply in_seq in I. lia. }
  apply H; apply G; assumption.
Qed.
Lemma find_vec_at l : forall v k i, get l i = Some v -> (forall j w, (j < i)%nat -> get l j = Some w -> w <> v) -> find_vec l v k = (k + i)%nat.
Proof.
  induction l as [|x l IH]; intros v k i G N; [destruct i; discriminate|]. cbn [find_vec]. destruct i as [|i].
  - cbn in G. injection G as ->. assert (veqb v v = true) as -> by (apply veqb_ok; reflexivity). lia.
  - destruct (veqb x v) eqn:Q.
    + apply veqb_ok in Q. exfalso. apply (N 0%nat x); [lia|reflexivity|exact Q].
    + rewrite (IH v (S k) i); [lia|exact G|]. intros j w Hj Gj. apply (N (S j) w); [lia|exact Gj].
Qed.

Lemma pre_firstn {T} (l : list T) k : forall i, (i < k)%nat -> get (firstn k l) i = get l i.
Proof. revert k. induction l as [|x l IH]; intros k i Hi; [rewrite firstn_nil; reflexivity|]. destruct k as [|k]; [lia|]. destruct i as [|i]; [reflexivity|]. cbn. apply IH. lia. Qed.
Lemma pre_skipn {T} (l : list T) k i : get (skipn k l) i = get l (k + i).
Proof. revert l. induction k as [|k IH]; intros l; [reflexivity|]. destruct l as [|x l]; [destruct i; reflexivity|]. cbn. apply IH. Qed.

Section Pre.
Variables (r n : nat) (A B : nat -> nat -> Z) (p : predatum) (d : datum).
Notation al := (fcol r A).
Notation be := (fcol r B).
Notation C := (fun i j => dot r (al i) (be j)).
Hypothesis K : datum_ok r n A B p d.
Notation s := (d_sys d).
Notation emb := (comb r n al).
Notation coemb := (comb r n be).

Lemma k_prefer : s_prefer s = p_prefer p.
Proof. destruct (k_sys _ _ _ _ _ _ K) as [c (L & F & H & Es)]. apply (top_system n C c (p_prefer p) s L F H Es). Qed.
Lemma k_count : (0 < n)%nat -> (num_pos s + n <= num_roots s)%nat.
Proof. intros H. destruct (k_simple r n A B p d K (n - 1) ltac:(lia)) as [Q _]. unfold d_simple, pos_nr, d_npos in Q. lia. Qed.
Lemma columns_run l f : length l = num_roots s -> (forall i, (i < n)%nat -> get l (d_simple d i) = Some (fcol r f i)) -> exists M, simple_columns d l = Ok M /\ is_mx M r n f.
Proof.
  intros Ln G. unfold simple_columns. rewrite Ln, (k_ss r n A B p d K), (k_rank _ _ _ _ _ _ K). unfold d_npos.
  assert (Q : (num_pos s + n <= num_roots s)%nat) by (destruct (Nat.eq_dec n 0) as [Z0|Z0]; [unfold num_roots; lia|apply k_count; lia]). destruct (Nat.ltb_spec (num_roots s) (num_pos s + n)) as [X|_]; [lia|].
  set (b := firstn n (skipn (num_pos s) l)). assert (Lb : length b = n) by (unfold b; rewrite firstn_length, skipn_length; lia).
  pose proof (of_columns_ok (E := never) 0 b r (fun j i => f i j)) as O. rewrite Lb in O.
  destruct (mat_of_columns 0 b r) as [M|e].
  - exists M. split; [reflexivity|]. apply O. intros j Hj. exists (fcol r f j). split.
    + unfold b. rewrite pre_firstn, pre_skipn by exact Hj. apply G. exact Hj.
    + split; [apply fcol_length|]. intros i Hi. rewrite get_co by (rewrite fcol_length; exact Hi). f_equal. apply co_fcol. exact Hi.
  - exfalso. apply O. intros j Hj. exists (fcol r f j). split.
    + unfold b. rewrite pre_firstn, pre_skipn by exact Hj. apply G. exact Hj.
    + split; [apply fcol_length|]. intros i Hi. rewrite get_co by (rewrite fcol_length; exact Hi). f_equal. apply co_fcol. exact Hi.
Qed.
Lemma simple_gets i : (i < n)%nat -> get (d_roots d) (d_simple d i) = Some (al i) /\ get (d_coroots d) (d_simple d i) = Some (be i).
Proof.
  intros H. destruct (k_simple r n A B p d K i H) as (Q & E1 & E2). rewrite (k_root _ _ _ _ _ _ K _ Q), (k_coroot _ _ _ _ _ _ K _ Q), E1, E2, !comb_basis by (auto using fcol_length). auto.
Qed.
Lemma to_pre_run : is_mx (p_roots p) r n A -> is_mx (p_coroots p) r n B -> to_pre d = Ok p.
Proof.
  intros HA HB. unfold to_pre. destruct (k_lens _ _ _ _ _ _ K) as [L1 L2].
  destruct (columns_run (d_roots d) A L1) as (M & EM & HM); [intros i Hi; apply simple_gets; exact Hi|]. destruct (columns_run (d_coroots d) B L2) as (N & EN & HN); [intros i Hi; apply simple_gets; exact Hi|].
  rewrite EM, EN. cbn [bind]. rewrite k_prefer, (is_mx_eq _ _ _ _ _ HM HA), (is_mx_eq _ _ _ _ _ HN HB). destruct p. reflexivity.
Qed.
Lemma status_run fits : gives (status fits d) (fun '(ad, sc) => (ad = true <-> saturated r n A) /\ (sc = true <-> saturated r n B)) (overflows fits).
Proof.
  unfold status. destruct (k_lens _ _ _ _ _ _ K) as [L1 L2].
  destruct (columns_run (d_roots d) A L1) as (M & EM & HM); [intros i Hi; apply simple_gets; exact Hi|]. destruct (columns_run (d_coroots d) B L2) as (N & EN & HN); [intros i Hi; apply simple_gets; exact Hi|].
  rewrite EM, EN. cbn [bind]. eapply gives_bind; [apply (unit_factors_run fits M r n A HM)|]. intros ad Had. eapply gives_bind; [apply (unit_factors_run fits N r n B HN)|]. intros sc Hsc. apply gives_ok. auto.
Qed.
Lemma sub_run g : Forall (fun a => (a < num_roots s)%nat) g -> exists q, sub_predatum d g = Ok q /\ p_prefer q = p_prefer p /\
  is_mx (p_roots q) r (length g) (fun i j => co (emb (root_at s (nth j g 0%nat))) i) /\ is_mx (p_coroots q) r (length g) (fun i j => co (coemb (coroot_at s (nth j g 0%nat))) i).
Proof.
  intros Fg. assert (G : gives (sub_predatum d g) (fun q => p_prefer q = p_prefer p /\
    is_mx (p_roots q) r (length g) (fun i j => co (emb (root_at s (nth j g 0%nat))) i) /\ is_mx (p_coroots q) r (length g) (fun i j => co (coemb (coroot_at s (nth j g 0%nat))) i)) never).
  { unfold sub_predatum. rewrite (k_rank _ _ _ _ _ _ K).
    eapply gives_bind with (P := fun '(M, N) => is_mx M r (length g) (fun i j => co (emb (root_at s (nth j g 0%nat))) i) /\ is_mx N r (length g) (fun i j => co (coemb (coroot_at s (nth j g 0%nat))) i)).
    2:{ intros [M N] [HM HN]. apply gives_ok. split; [apply k_prefer|]. split; assumption. }
    apply (gives_upto0 (fun t '(M, N) => exists f h, is_mx M r (length g) f /\ is_mx N r (length g) h /\ forall i j, (j < t)%nat -> f i j = co (emb (root_at s (nth j g 0%nat))) i /\ h i j = co (coemb (coroot_at s (nth j g 0%nat))) i)).
    - exists (fun _ _ => 0), (fun _ _ => 0). split; [apply fill_ok|]. split; [apply fill_ok|]. intros; lia.
    - intros t [M N] Ht (f & h & HM & HN & Q). destruct (get_some g t Ht) as [a Ga]. rewrite (vget_ok _ _ _ Ga). cbn [bind].
      assert (Ia : (a < num_roots s)%nat) by (rewrite Forall_forall in Fg; apply Fg; apply (get_In _ _ _ Ga)). assert (Na : nth t g 0%nat = a) by (apply get_nth_eq; exact Ga).
      destruct (d_root_run r n A B p d K a Ia) as [D1 D2]. rewrite D1, D2. cbn [bind].
      eapply gives_bind; [apply (set_column_ok M r (length g) f t _ (co (emb (root_at s a))) HM Ht); apply vec_self, comb_length|]. intros M1 HM1.
      eapply gives_bind; [apply (set_column_ok N r (length g) h t _ (co (coemb (coroot_at s a))) HN Ht); apply vec_self, comb_length|]. intros N1 HN1. apply gives_ok.
      eexists _, _. split; [exact HM1|]. split; [exact HN1|]. intros i j Hj. cbv beta. destruct (Nat.eqb_spec j t) as [->|Nt]; [rewrite Na; auto|]. apply Q. lia.
    - intros [M N] (f & h & HM & HN & Q). split; (eapply is_mx_ext; [eassumption|]; intros i j Hi Hj; apply (Q i j Hj)). }
  destruct (sub_predatum d g) as [q|e]; [|destruct G]. exists q. split; [reflexivity|exact G].
Qed.
(** ** the dual datum *)
Lemma dual_run : exists d', dual_datum d = Ok d' /\ datum_ok r n B A (p_dual p) d'.
Proof.
  destruct (k_sys _ _ _ _ _ _ K) as [c bt]. pose proof bt as (L & F & H & Es).
  assert (T : exists ct, is_mx ct n n (flip C)).
  { pose proof (transposed_ok (E := never) 0 c n n C H) as O. destruct (transposed 0 c) as [ct|e]; [|destruct O]. exists ct. exact O. }
  destruct T as [ct Ht]. pose proof (C99_dual n C c ct (p_prefer p) s bt Ht) as Ed. destruct (C99_numbers n C c (p_prefer p) s bt) as (s' & Es' & Nr & Hn).
  unfold dual_datum. rewrite Es'. cbn [bind]. eexists. split; [reflexivity|].
  assert (Np : num_pos s' = num_pos s) by (unfold num_roots in Nr; lia).
  assert (Rn : forall a, (a < num_roots s)%nat -> root_at s' a = coroot_at s a /\ coroot_at s' a = root_at s a) by (intros a Ha; unfold root_at, coroot_at; destruct (Hn a Ha) as [-> ->]; auto).
  assert (In0 : forall a, In a (seq (num_pos s) (num_pos s)) -> (a < num_roots s)%nat) by (intros a Ia; apply in_seq in Ia; unfold num_roots; lia).
  constructor; cbn [d_sys d_rank d_roots d_coroots d_2rho d_dual_2rho].
  - exists ct. split; [exact L|]. split; [apply (finite_ext n (flip C)); [intros i j _ _; apply dot_comm|apply finite_flip; exact F]|].
    split; [eapply is_mx_ext; [exact Ht|]; intros i j _ _; apply dot_comm|]. cbn [p_dual p_prefer]. rewrite <- Ed. exact Es'.
  - apply (k_rank _ _ _ _ _ _ K).
  - rewrite Nr. destruct (k_lens _ _ _ _ _ _ K). auto.
  - rewrite Nr. intros a Ha. rewrite (k_coroot _ _ _ _ _ _ K a Ha). destruct (Rn a Ha) as [-> _]. reflexivity.
  - rewrite Nr. intros a Ha. rewrite (k_root _ _ _ _ _ _ K a Ha). destruct (Rn a Ha) as [_ ->]. reflexivity.
  - rewrite Np, (k_dual_2rho _ _ _ _ _ _ K). f_equal. apply map_ext_in. intros a Ia. destruct (Rn a (In0 a Ia)) as [-> _]. reflexivity.
  - rewrite Np, (k_2rho _ _ _ _ _ _ K). f_equal. apply map_ext_in. intros a Ia. destruct (Rn a (In0 a Ia)) as [_ ->]. reflexivity.
Qed.
Lemma datum_unique d' : datum_ok r n A B p d' -> d = d'.
Proof.
  intros K'. destruct (k_sys _ _ _ _ _ _ K) as [c (_ & _ & H & Es)]. destruct (k_sys _ _ _ _ _ _ K') as [c' (_ & _ & H' & Es')]. rewrite (is_mx_eq _ _ _ _ _ H' H), Es in Es'. injection Es' as Q.
  destruct (k_lens _ _ _ _ _ _ K) as [L1 L2]. destruct (k_lens _ _ _ _ _ _ K') as [L1' L2']. rewrite <- Q in L1', L2'.
  assert (X : forall l l' : list (list Z), length l = num_roots s -> length l' = num_roots s -> (forall a, (a < num_roots s)%nat -> get l a = get l' a) -> l = l').
  { intros l l' E1 E2 G. apply (nth_ext l l' [] []); [congruence|]. intros a Ha. rewrite E1 in Ha. destruct (get_some l a ltac:(lia)) as [x Gx]. pose proof (G a Ha) as G'. rewrite Gx in G'. rewrite (get_nth_eq _ _ _ _ Gx). symmetry. apply get_nth_eq. symmetry. exact G'. }
  destruct d as [sy rk rts crts tr dtr] eqn:Dd, d' as [sy' rk' rts' crts' tr' dtr'] eqn:Dd'. cbn in *. subst sy'. f_equal.
  - rewrite (k_rank _ _ _ _ _ _ K : rk = r). symmetry. exact (k_rank _ _ _ _ _ _ K').
  - apply X; [exact L1|exact L1'|]. intros a Ha. rewrite (k_root _ _ _ _ _ _ K a Ha : get rts a = _). symmetry. exact (k_root _ _ _ _ _ _ K' a Ha).
  - apply X; [exact L2|exact L2'|]. intros a Ha. rewrite (k_coroot _ _ _ _ _ _ K a Ha : get crts a = _). symmetry. exact (k_coroot _ _ _ _ _ _ K' a Ha).
  - rewrite (k_2rho _ _ _ _ _ _ K : tr = _). symmetry. exact (k_2rho _ _ _ _ _ _ K').
  - rewrite (k_dual_2rho _ _ _ _ _ _ K : dtr = _). symmetry. exact (k_dual_2rho _ _ _ _ _ _ K').
Qed.
(** ** a matrix that permutes the roots *)
Lemma root_index_run a : (a < num_roots s)%nat -> root_index d (emb (root_at s a)) = a.
Proof.
  intros Ha. unfold root_index. rewrite (find_vec_at _ _ 0 a); [reflexivity|apply (k_root _ _ _ _ _ _ K); exact Ha|].
  intros j w Hj G E. rewrite (k_root _ _ _ _ _ _ K j ltac:(lia)) in G. injection G as <-. destruct (k_sys _ _ _ _ _ _ K) as [c (L & F & H & Es)].
  assert (Q : root_at s j = root_at s a).
  { apply (emb_inj r n al be C); [intros; reflexivity|apply (k_good r n A B p d K)|..].
    - apply (root_length n C). exists (coroot_at s j). apply (k_at r n A B p d K j). lia.
    - apply (root_length n C). exists (coroot_at s a). apply (k_at r n A B p d K a). exact Ha.
    - exact E. }
  pose proof (top_inj n C c (p_prefer p) s L F H Es j a ltac:(lia) Ha (or_introl Q)). lia.
Qed.
Lemma rootPermutation_run fits q g b : is_mx q r r g ->
  (forall i, (i < n)%nat -> (b i < num_roots s)%nat /\ comb r r (fcol r g) (al i) = emb (root_at s (b i))) ->
  (forall i j, (i < n)%nat -> (j < n)%nat -> dot r (emb (root_at s (b i))) (coemb (coroot_at s (b j))) = C i j) ->
  gives (rootPermutation fits d q) (fun l => length l = num_roots s /\ forall a, (a < num_roots s)%nat -> exists c, get l a = Some c /\ (c < num_roots s)%nat /\
    comb r r (fcol r g) (emb (root_at s a)) = emb (root_at s c)) (overflows fits).
Proof.
  intros Hq Hb Hc. unfold rootPermutation. rewrite (k_ss r n A B p d K).
  eapply gives_bind with (P := fun im => length im = n /\ forall i, (i < n)%nat -> nth i im 0%nat = b i).
  { apply (gives_upto0 (fun t im => length im = n /\ forall i, (i < t)%nat -> nth i im 0%nat = b i)).
    - split; [apply repeat_length|]. intros; lia.
    - intros t im Ht (L & Q). destruct (d_simple_run r n A B p d K t Ht) as [D1 _]. rewrite D1. cbn [bind]. destruct (Hb t Ht) as [B1 B2].
      eapply gives_bind; [apply (apply_run fits q r r g (al t) Hq (fcol_length r A t))|]. intros y <-. rewrite B2, (root_index_run _ B1).
      destruct (vput_ok im t (b t) ltac:(lia)) as (im' & Eim & Lim & Gim). rewrite Eim. cbn. split; [congruence|]. intros i Hi. apply get_nth_eq. rewrite Gim. destruct (Nat.eqb_spec i t) as [->|Nt]; [reflexivity|].
      destruct (get_some im i ltac:(lia)) as [z Gz]. rewrite Gz. f_equal. rewrite <- (Q i ltac:(lia)). symmetry. apply get_nth_eq. exact Gz.
    - intros im H. exact H. }
  intros im (Lim & Him). destruct (k_sys _ _ _ _ _ _ K) as [c bt].
  destruct (C100_extend n C c (p_prefer p) s im bt Lim) as (l & El & Ll & Hl).
  - intros i Hi. rewrite Him by exact Hi. apply Hb. exact Hi.
  - intros i j Hi Hj. rewrite !Him by assumption. rewrite <- (Hc i j Hi Hj). symmetry. apply (dot_emb_coemb r n al be C). intros; reflexivity.
  - rewrite El. cbn. split; [exact Ll|]. intros a Ha. destruct (Hl a Ha) as (x & G & Hx & Q). exists x. split; [exact G|]. split; [exact Hx|]. rewrite Q.
    apply vec_ext; [rewrite !comb_length; reflexivity|]. intros k Hk. rewrite comb_length in Hk. rewrite !co_comb by exact Hk.
    (* both sides: the sum over j of the coordinates of the root times the image of simple root j *)
    transitivity (zsum n (fun j => co (root_at s a) j * co (emb (root_at s (b j))) k)).
    + rewrite (zsum_ext r _ (fun i => zsum n (fun j => co (root_at s a) j * (co (al j) i * co (fcol r g i) k)))).
      * rewrite zsum_swap. apply zsum_ext. intros j Hj. rewrite zsum_mul_l. f_equal. rewrite <- (proj2 (Hb j Hj)), co_comb by exact Hk. reflexivity.
      * intros i Hi. rewrite co_comb by exact Hi. rewrite (Z.mul_comm (zsum _ _)), <- zsum_mul_l. apply zsum_ext. intros j Hj. lia.
    + rewrite (zsum_ext n (fun i => co (linear _ _ _) i * _) (fun i => zsum n (fun j => co (root_at s a) j * (co (root_at s (nth j im 0%nat)) i * co (al i) k)))).
      * rewrite zsum_swap. apply zsum_ext. intros j Hj. rewrite zsum_mul_l. f_equal. rewrite co_comb by exact Hk. rewrite Him by exact Hj. reflexivity.
      * intros i Hi. unfold linear. rewrite co_map by exact Hi. rewrite (Z.mul_comm (zsum _ _)), <- zsum_mul_l. apply zsum_ext. intros j Hj. lia.
Qed.
End Pre.
