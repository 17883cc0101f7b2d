(** Products of reflections, and the selection of roots by max_orth. *)

From Coq Require Import List Arith ZArith Bool Lia.
From Verif Require Import VecModel RunModel RunProofs MatModel MatSpec MatRing MatLin MatProofs SizeModel LieTypeSpec RootModel RootSpec RootMath RootForm RootGen RootPerm RootMake RootSys RootAcc RootLook RootOrder RootBasis RootBase RootTop RsfSteps RootProps MoModel MoSpec MoBase MoLong.
Import ListNotations.
Local Open Scope Z_scope.

Definition lsum (t : nat -> Z) (l : list nat) : Z := fold_right (fun a z => t a + z) 0 l.
Lemma lsum_cons t a l : lsum t (a :: l) = t a + lsum t l. Proof. reflexivity. Qed.
Lemma lsum_zsum m t (p : nat -> bool) l : NoDup l -> (forall a, In a l -> (a < m)%nat) -> (forall a, (a < m)%nat -> (p a = true <-> In a l)) -> lsum t l = total m p t.
Proof.
  revert p. induction l as [|a l IH]; intros p ND B P.
  - cbn. unfold total. symmetry. apply zsum_zero. intros i Hi. destruct (p i) eqn:Q; [|reflexivity]. apply (P i Hi) in Q. destruct Q.
  - inversion ND as [|? ? Na ND']; subst. cbn [lsum fold_right]. fold (lsum t l). set (p' := fun y => p y && negb (Nat.eqb y a)). rewrite (IH p').
    + unfold total. rewrite (zsum_bump m (fun x => if p x then t x else 0) (fun y => if p' y then t y else 0) a (t a)); [lia|apply B; left; reflexivity|]. intros k Hk. unfold p'. destruct (Nat.eqb_spec k a) as [->|N].
      * rewrite andb_false_r. rewrite (proj2 (P a Hk)) by (left; reflexivity). lia.
      * rewrite andb_true_r. lia.
    + exact ND'.
    + intros b Hb. apply B. right. exact Hb.
    + intros b Hb. unfold p'. rewrite andb_true_iff, negb_true_iff, Nat.eqb_neq, (P b Hb). split; [intros [[<-|Q] N]; [congruence|exact Q]|intros Q; split; [right; exact Q|intros ->; exact (Na Q)]].
Qed.
Lemma lsum_ext t u l : (forall a, In a l -> t a = u a) -> lsum t l = lsum u l.
Proof. induction l as [|a l IH]; intros H; [reflexivity|]. cbn [lsum fold_right]. fold (lsum t l) (lsum u l). rewrite (H a) by (left; reflexivity). rewrite IH; [reflexivity|]. intros b Hb. apply H. right. exact Hb. Qed.

Section Max.
Variables (n : nat) (f : nat -> nat -> Z) (c : matrix Z) (pc : bool) (s : rootsys).
Hypothesis K : built n f c pc s.
Notation nr := (num_roots s).
Notation np := (num_pos s).
Notation R := (root_at s).
Notation W := (coroot_at s).
Notation V a b := (value n f (root_at s a) (coroot_at s b)).
Notation mn := (minus_nr (num_pos s)).
Notation add := (addable n f (root_at s)).
Notation Lg := (Long n f s).
Notation adb := (adb s).
Notation refls := (reflections n f (root_at s) (coroot_at s)).

(** ** Products of reflections *)
Lemma refls_ok l v : length v = n -> NoDup l -> (forall a, In a l -> (a < nr)%nat) -> (forall a b, In a l -> In b l -> a <> b -> V a b = 0) ->
  length (refls l v) = n /\ (forall b, (forall a, In a l -> V a b = 0) -> value n f (refls l v) (W b) = value n f v (W b)) /\
  forall j, co (refls l v) j = co v j - lsum (fun a => value n f v (W a) * co (R a) j) l.
Proof.
  intros Lv. induction l as [|a l IH]; intros ND B O; [split; [exact Lv|]; split; [reflexivity|]; intros j; unfold lsum, reflections; cbn [fold_right]; lia|].
  apply NoDup_cons_iff in ND; destruct ND as [Na ND']. destruct IH as (I1 & I2 & I3); [exact ND'|intros b Hb; apply B; right; exact Hb|intros x y Hx Hy; apply O; right; assumption|].
  assert (Ha : (a < nr)%nat) by (apply B; left; reflexivity). destruct (b_len n f c pc s K a Ha) as [La La']. cbn [refls fold_right]. fold (refls l v). unfold reflect.
  assert (Va : value n f (refls l v) (W a) = value n f v (W a)). { apply I2. intros b Hb. apply O; [right; exact Hb|left; reflexivity|]. intros ->. exact (Na Hb). }
  split; [apply away_length|]. split.
  - intros b Hb. rewrite value_away_l by assumption. rewrite (Hb a) by (left; reflexivity). rewrite I2; [lia|]. intros x Hx. apply Hb. right. exact Hx.
  - intros j. rewrite co_away by assumption. rewrite I3, Va, lsum_cons. lia.
Qed.
Definition pairwise (T : bset) := forall x y, bmem T x = true -> bmem T y = true -> x <> y -> V x y = 0.
Lemma members_nodup (T : bset) : NoDup (members T). Proof. apply NoDup_filter, seq_NoDup. Qed.
Lemma members_orth (T : bset) : length T = nr -> pairwise T -> orthogonal n f R W (members T).
Proof. intros L O. split; [apply members_nodup|]. intros a b Ha Hb. apply O; apply (in_members s T _ L); assumption. Qed.
Lemma refls_members T T' v : length T = nr -> length T' = nr -> pairwise T -> pairwise T' -> length v = n ->
  (forall j, total nr (bmem T) (fun x => value n f v (W x) * co (R x) j) = total nr (bmem T') (fun x => value n f v (W x) * co (R x) j)) ->
  refls (members T) v = refls (members T') v.
Proof.
  intros L L' O O' Lv E. 
  assert (Q : forall T, length T = nr -> pairwise T -> length (refls (members T) v) = n /\ forall j, co (refls (members T) v) j = co v j - total nr (bmem T) (fun x => value n f v (W x) * co (R x) j)).
  { intros T0 L0 O0. destruct (members_orth T0 L0 O0) as [ND O1]. destruct (refls_ok (members T0) v Lv ND) as (Q1 & _ & Q2); [intros a Ha; apply (mem_lt s T0 a L0); apply (in_members s T0 a L0); exact Ha|exact O1|].
    split; [exact Q1|]. intros j. rewrite Q2. f_equal. rewrite <- (total_list nr). unfold members. rewrite L0. reflexivity. }
  destruct (Q T L O) as [A1 A2], (Q T' L' O') as [B1 B2]. apply vec_ext; [congruence|]. intros j _. rewrite A2, B2, E. reflexivity.
Qed.
Lemma members_total T : length T = nr -> Z.of_nat (length (members T)) = total nr (bmem T) (fun _ => 1).
Proof. intros L. rewrite length_sum. unfold members. rewrite L. apply (total_list nr (bmem T) (fun _ => 1)). Qed.

(** ** One pass over the candidates *)
Definition orb (a x : nat) : bool := V x a =? 0.
Lemma orb_ok a x : (a < nr)%nat -> (x < nr)%nat -> is_orthogonal s a x = Ok (orb a x).
Proof.
  intros Ha Hx. destruct (C96_orthogonal n f c pc s a x K Ha Hx) as (t & -> & Q). f_equal. unfold orb. apply eq_true_iff_eq. rewrite Q, Z.eqb_eq. reflexivity.
Qed.
Lemma bflip_ok (b : bset) x : (x < length b)%nat -> exists b', bflip b x = Ok b' /\ length b' = length b /\ forall y, bmem b' y = xorb (Nat.eqb y x) (bmem b y).
Proof.
  intros H. unfold bflip, vget. rewrite (bmem_get b x H). cbn [bind]. destruct (vput_ok b x (negb (bmem b x)) H) as (w & E & L & G). exists w. split; [exact E|]. split; [exact L|]. intros y.
  destruct (le_lt_dec (length b) y) as [Q|Q].
  - rewrite !bmem_over by lia. rewrite (proj2 (Nat.eqb_neq y x)) by lia. reflexivity.
  - pose proof (G y) as Gy. rewrite (bmem_get w y) in Gy by lia. rewrite (bmem_get b y) in Gy by lia. destruct (Nat.eqb_spec y x) as [->|N]; injection Gy as ->; [destruct (bmem b x); reflexivity|destruct (bmem b y); reflexivity].
Qed.
Lemma band_ok (b d : bset) x : length b = length d -> length (band b d) = length b /\ bmem (band b d) x = bmem b x && bmem d x.
Proof.
  intros L. unfold band. split; [rewrite map_length, combine_length; lia|]. destruct (le_lt_dec (length b) x) as [Q|Q]; [rewrite !bmem_over by (rewrite ?map_length, ?combine_length; lia); reflexivity|].
  apply (bmem_zip andb b d x L Q).
Qed.
Lemma pass_ok a ncr sub : (a < nr)%nat -> length ncr = nr -> length sub = nr -> exists ncr' sub', orth_pass s a ncr sub = Ok (ncr', sub') /\ length ncr' = nr /\ length sub' = nr /\
  (forall x, bmem sub' x = bmem sub x && orb a x) /\ (forall x, bmem sub x = true -> orb a x = true -> bmem ncr' x = xorb (adb a x) (bmem ncr x)).
Proof.
  intros Ha Ln Ls.
  assert (G : gives (orth_pass s a ncr sub) (fun '(m, t) => length m = nr /\ length t = nr /\ (forall x, bmem t x = bmem sub x && (if (x <? nr)%nat then orb a x else true)) /\
     (forall x, bmem m x = if (x <? nr)%nat && bmem sub x && orb a x then xorb (adb a x) (bmem ncr x) else bmem ncr x)) (fun _ => False)).
  { unfold orth_pass. rewrite Ls. refine (gives_upto0 (fun k '(m, t) => length m = nr /\ length t = nr /\ (forall x, bmem t x = bmem sub x && (if (x <? k)%nat then orb a x else true)) /\
     (forall x, bmem m x = if (x <? k)%nat && bmem sub x && orb a x then xorb (adb a x) (bmem ncr x) else bmem ncr x)) _ _ _ _ _ _ _).
    - split; [exact Ln|]. split; [exact Ls|]. split; [intros x; cbn; rewrite andb_true_r; reflexivity|intros x; reflexivity].
    - intros k [m t] Hk (Lm & Lt & Tt & Tm).
      assert (same : forall x, x <> k -> (x <? S k)%nat = (x <? k)%nat) by (intros x N; apply eq_true_iff_eq; rewrite !Nat.ltb_lt; lia).
      assert (Kk : (k <? S k)%nat = true) by (apply Nat.ltb_lt; lia). assert (Kn : (k <? k)%nat = false) by (apply Nat.ltb_ge; lia).
      pose proof (Tt k) as Tk. rewrite Kn, andb_true_r in Tk. pose proof (Tm k) as Mk. rewrite Kn in Mk. cbn [andb] in Mk.
      destruct (bmem t k) eqn:Bk; symmetry in Tk.
      + rewrite (orb_ok a k Ha Hk). cbn [bind]. destruct (orb a k) eqn:Ok_.
        * destruct (adb_ok n f c pc s K a k Ha Hk) as [-> _]. cbn [bind]. destruct (adb a k) eqn:D.
          -- destruct (bflip_ok m k) as (m' & -> & Lm' & Bm); [lia|]. cbn [bind gives]. split; [lia|]. split; [exact Lt|]. split; intros x.
             ++ destruct (Nat.eq_dec x k) as [->|N]; [rewrite Kk, Bk, Tk, Ok_; reflexivity|rewrite (same x N); apply Tt].
             ++ rewrite Bm. destruct (Nat.eqb_spec x k) as [->|N]; [rewrite Kk, Tk, Ok_, D, Mk; reflexivity|rewrite (same x N), Tm; destruct ((x <? k)%nat && bmem sub x && orb a x), (adb a x), (bmem ncr x); reflexivity].
          -- cbn [gives]. split; [exact Lm|]. split; [exact Lt|]. split; intros x.
             ++ destruct (Nat.eq_dec x k) as [->|N]; [rewrite Kk, Bk, Tk, Ok_; reflexivity|rewrite (same x N); apply Tt].
             ++ destruct (Nat.eq_dec x k) as [->|N]; [rewrite Kk, Tk, Ok_, D, Mk; destruct (bmem ncr k); reflexivity|rewrite (same x N); apply Tm].
        * destruct (brem_ok t k) as (t' & -> & Lt' & Bt); [lia|]. cbn [bind gives]. split; [exact Lm|]. split; [lia|]. split; intros x.
          -- rewrite Bt. destruct (Nat.eqb_spec x k) as [->|N]; [rewrite Kk, Ok_, andb_false_r; reflexivity|rewrite (same x N); apply Tt].
          -- destruct (Nat.eq_dec x k) as [->|N]; [rewrite Kk, Tk, Ok_; exact Mk|rewrite (same x N); apply Tm].
      + cbn [gives]. split; [exact Lm|]. split; [exact Lt|]. split; intros x.
        * destruct (Nat.eq_dec x k) as [->|N]; [rewrite Bk, Tk; reflexivity|rewrite (same x N); apply Tt].
        * destruct (Nat.eq_dec x k) as [->|N]; [rewrite Kk, Tk; exact Mk|rewrite (same x N); apply Tm].
    - intros [m t] Q. exact Q. }
  destruct (orth_pass s a ncr sub) as [[m t]|]; [|destruct G]. destruct G as (Lm & Lt & Tt & Tm). exists m, t. split; [reflexivity|]. split; [exact Lm|]. split; [exact Lt|]. split.
  - intros x. rewrite Tt. destruct (Nat.ltb_spec x nr) as [Q|Q]; [reflexivity|]. rewrite (bmem_over sub x) by lia. reflexivity.
  - intros x Bx Ox. rewrite Tm, Bx, Ox, (proj2 (Nat.ltb_lt x nr) (mem_lt s sub x Ls Bx)). reflexivity.
Qed.

(** ** The selection *)
Variables (N Sub : bset).
Hypothesis LN : length N = nr.
Hypothesis LS : length Sub = nr.
Hypothesis NS : forall x, bmem N x = true -> bmem Sub x = true.
Definition isN x := bmem N x = true.
Definition isS x := bmem Sub x = true /\ (np <= x)%nat.
Notation after := (noncompact_after n f (root_at s) isN).
Notation cand := (candidate n f (root_at s) (coroot_at s) isN isS).
Notation sel := (selection n f (root_at s) (coroot_at s) isN isS).
Definition afterb (l : list nat) (x : nat) : bool := xorb (bmem N x) (Z.odd (lsum (fun a => if adb a x then 1 else 0) l)).
Lemma after_ok l x : (forall a, In a l -> (a < nr)%nat) -> (x < nr)%nat -> (after l x <-> afterb l x = true).
Proof.
  intros B Hx. induction l as [|a l IH]; [unfold afterb; cbn; unfold isN; rewrite xorb_false_r; reflexivity|]. cbn [noncompact_after]. rewrite IH by (intros b Hb; apply B; right; exact Hb).
  destruct (adb_ok n f c pc s K a x (B a (or_introl eq_refl)) Hx) as [_ Q]. rewrite <- Q. unfold afterb. rewrite lsum_cons.
  rewrite Z.odd_add. destruct (adb a x), (bmem N x), (Z.odd (lsum _ l)); cbn; intuition congruence.
Qed.
Lemma sel_lt l : sel l -> forall a, In a l -> (a < nr)%nat /\ isS a.
Proof. induction 1 as [|l x Hl IH (Sx & _) _]; intros a Ha; [destruct Ha|]. destruct Ha as [<-|Ha]; [|apply IH; exact Ha]. split; [apply (mem_lt s Sub x LS); apply Sx|exact Sx]. Qed.
Lemma sel_orth l : sel l -> orthogonal n f R W l.
Proof.
  intros H. induction H as [|l x Hl IH C _]; [split; [constructor|intros a b []]|]. destruct IH as [ND O]. destruct C as (Sx & Ox & _). assert (Hx : (x < nr)%nat) by (apply (mem_lt s Sub x LS); apply Sx).
  assert (Nx : ~ In x l) by (intros Q; pose proof (Ox x Q) as Z0; rewrite (b_self n f c pc s K x Hx) in Z0; lia). split; [constructor; assumption|].
  intros a b [<-|Ha] [<-|Hb] Nab; [congruence|apply Ox; exact Hb| |apply O; assumption]. apply (b_sign n f c pc s K x a Hx (proj1 (sel_lt l Hl a Ha))). apply Ox. exact Ha.
Qed.
Lemma loop_ok fuel : forall l ncr sub result, sel l -> (S nr <= fuel + length l)%nat -> length ncr = nr -> length sub = nr -> length result = nr ->
  (forall x, bmem sub x = true <-> isS x /\ forall a, In a l -> V x a = 0) -> (forall x, bmem ncr x = true <-> cand l x) -> (forall x, bmem result x = true <-> In x l) ->
  exists l' r, orth_loop s fuel ncr sub result = Ok r /\ sel l' /\ (forall x, ~ cand l' x) /\ length r = nr /\ forall x, bmem r x = true <-> In x l'.
Proof.
  induction fuel as [|fuel IH]; intros l ncr sub result Hl Fu Ln Ls Lr Bs Bn Br.
  - exfalso. pose proof (NoDup_incl_length (proj1 (sel_orth l Hl)) (l' := seq 0 nr)) as Q. rewrite seq_length in Q. assert (incl l (seq 0 nr)) by (intros a Ha; apply in_seq; pose proof (proj1 (sel_lt l Hl a Ha)); lia). specialize (Q H). lia.
  - cbn [orth_loop]. destruct (members ncr) as [|a t] eqn:M.
    + exists l, result. split; [reflexivity|]. split; [exact Hl|]. split; [|split; assumption]. intros x Cx. apply Bn in Cx. apply (in_members s ncr x Ln) in Cx. rewrite M in Cx. destruct Cx.
    + assert (Ca : cand l a) by (apply Bn; apply (in_members s ncr a Ln); rewrite M; left; reflexivity). assert (Ha : (a < nr)%nat) by (apply (mem_lt s ncr a Ln); apply Bn; exact Ca).
      assert (Min : forall y, cand l y -> (a <= y)%nat).
      { intros y Cy. apply Bn in Cy. apply (in_members s ncr y Ln) in Cy. rewrite M in Cy. destruct Cy as [<-|Cy]; [lia|].
        assert (So : Sorted.StronglySorted lt (members ncr)). { unfold members. generalize (length ncr). intros m. generalize 0%nat. induction m as [|m IHm]; intros o; [constructor|]. cbn [seq filter]. destruct (bmem ncr o); [|apply IHm]. constructor; [apply IHm|]. apply Forall_forall. intros z Hz. apply filter_In in Hz. destruct Hz as [Hz _]. apply in_seq in Hz. lia. }
        rewrite M in So. inversion So as [|? ? _ Fa]; subst. rewrite Forall_forall in Fa. specialize (Fa y Cy). lia. }
      destruct (bins_ok result a) as (r1 & -> & Lr1 & Br1); [lia|]. cbn [bind]. destruct (pass_ok a ncr sub Ha Ln Ls) as (n1 & s1 & -> & Ln1 & Ls1 & Bs1 & Bn1). cbn [bind].
      assert (Hl' : sel (a :: l)) by (constructor; assumption).
      assert (Bs' : forall x, bmem s1 x = true <-> isS x /\ forall b, In b (a :: l) -> V x b = 0).
      { intros x. rewrite Bs1, andb_true_iff, Bs. unfold orb. rewrite Z.eqb_eq. split; [intros [[Q1 Q2] Q3]; split; [exact Q1|]; intros b [<-|Hb]; [exact Q3|apply Q2; exact Hb]|].
        intros [Q1 Q2]. split; [split; [exact Q1|]; intros b Hb; apply Q2; right; exact Hb|apply Q2; left; reflexivity]. }
      apply (IH (a :: l)); [exact Hl'|cbn [length]; lia|rewrite (proj1 (band_ok n1 s1 0 ltac:(lia))); exact Ln1|exact Ls1|lia|exact Bs'| |].
      * intros x. rewrite (proj2 (band_ok n1 s1 x ltac:(lia))), andb_true_iff. unfold candidate.
        assert (Q : bmem s1 x = true -> (bmem n1 x = true <-> after (a :: l) x)).
        { intros Sx. pose proof Sx as Sx'. rewrite Bs1, andb_true_iff in Sx'. destruct Sx' as [S1 S2]. rewrite (Bn1 x S1 S2). assert (Hx : (x < nr)%nat) by (apply (mem_lt s sub x Ls S1)).
          cbn [noncompact_after]. destruct (adb_ok n f c pc s K a x Ha Hx) as [_ Q]. rewrite <- Q.
          assert (Q2 : bmem ncr x = true <-> after l x). { rewrite Bn. unfold candidate. apply Bs in S1. tauto. }
          rewrite <- Q2. destruct (adb a x), (bmem ncr x); cbn; intuition congruence. }
        rewrite <- and_assoc, <- Bs'. tauto.
      * intros x. rewrite Br1, orb_true_iff, Nat.eqb_eq, Br. cbn [In]. intuition congruence.
Qed.
Lemma pos_set : length (posroot_set s) = nr /\ forall x, (x < nr)%nat -> (bmem (posroot_set s) x = true <-> (np <= x)%nat).
Proof.
  unfold posroot_set. split; [rewrite map_length, seq_length; reflexivity|]. intros x Hx. rewrite bmem_map. unfold get. 
  rewrite nth_error_nth' with (d := 0%nat) by (rewrite seq_length; exact Hx). rewrite seq_nth by exact Hx. apply Nat.leb_le.
Qed.
Lemma select_ok : exists l r, orth_loop s (S nr) (band N (posroot_set s)) (band Sub (posroot_set s)) (repeat false nr) = Ok r /\ sel l /\ (forall x, ~ cand l x) /\ length r = nr /\ forall x, bmem r x = true <-> In x l.
Proof.
  destruct pos_set as [Lp Bp].
  assert (Q : forall T, length T = nr -> length (band T (posroot_set s)) = nr /\ forall x, bmem (band T (posroot_set s)) x = true <-> bmem T x = true /\ (np <= x)%nat).
  { intros T LT. split; [rewrite (proj1 (band_ok T (posroot_set s) 0 ltac:(lia))); exact LT|]. intros x. rewrite (proj2 (band_ok T (posroot_set s) x ltac:(lia))), andb_true_iff. split; intros [Q1 Q2]; (split; [exact Q1|]); apply (Bp x (mem_lt s T x LT Q1)); exact Q2. }
  destruct (Q N LN) as [L1 B1], (Q Sub LS) as [L2 B2]. apply (loop_ok (S nr) []); [constructor|cbn; lia|exact L1|exact L2|apply repeat_length| | |].
  - intros x. rewrite B2. unfold isS. split; [intros Q1; split; [exact Q1|intros a []]|tauto].
  - intros x. rewrite B1. unfold candidate, isS. cbn [noncompact_after]. unfold isN. split; [intros [Q1 Q2]; split; [split; [apply NS; exact Q1|exact Q2]|]; split; [intros a []|exact Q1]|tauto].
  - intros x. split; [intros Q1|intros []]. unfold bmem in Q1. destruct (le_lt_dec nr x) as [L|L]; [rewrite nth_overflow in Q1 by (rewrite repeat_length; exact L); discriminate|]. rewrite nth_repeat in Q1. discriminate.
Qed.
End Max.
