(** Bases of subsystems. *)

From Coq Require Import List Arith ZArith Bool Lia Sorted.
From Verif Require Import VecModel VecProofs RunModel RunProofs MatModel MatSpec MatRing MatLin MatProofs MatOps SizeModel BitsetSpec DynBits DynkinModel LieTypeSpec RatVecMore RootModel RootSpec RootMath RootForm RootFin RootBase RootGen RootCo RootPerm RootMake RootSys RootAcc RootLook RootOrder.
Import ListNotations.
Local Open Scope Z_scope.

Lemma plus_assoc n u v w : length u = n -> length v = n -> length w = n -> plus n u (plus n v w) = plus n (plus n u v) w.
Proof.
  intros Lu Lv Lw. apply vec_ext; [rewrite !plus_length; reflexivity|]. intros k _. rewrite !co_plus by (rewrite ?plus_length; assumption || reflexivity). lia.
Qed.
Lemma co_zero n k : co (repeat 0 n) k = 0.
Proof. unfold co. destruct (nth_in_or_default k (repeat 0 n) 0) as [I|E]; [apply repeat_spec in I; exact I|exact E]. Qed.
Lemma plus_zero_l n v : length v = n -> plus n (repeat 0 n) v = v.
Proof. intros L. apply vec_ext; [rewrite plus_length; lia|]. intros k _. rewrite co_plus by (rewrite ?repeat_length; lia). rewrite co_zero. lia. Qed.
Lemma vsum_length n l : length (vsum n l) = n. Proof. destruct l; cbn; [apply repeat_length|apply plus_length]. Qed.
Lemma vsum_app n l l' : Forall (fun v => length v = n) l -> vsum n (l ++ l') = plus n (vsum n l) (vsum n l').
Proof.
  induction l as [|v t IH]; intros F; [symmetry; apply plus_zero_l; apply vsum_length|]. cbn [app vsum fold_right]. change (fold_right (plus n) (repeat 0 n) (t ++ l')) with (vsum n (t ++ l')). rewrite IH by (inversion F; assumption).
  apply plus_assoc; [inversion F; assumption|apply vsum_length|apply vsum_length].
Qed.
Lemma brem_ok (B : bset) x : (x < length B)%nat -> exists B', brem B x = Ok B' /\ length B' = length B /\ forall b, bmem B' b = (negb (Nat.eqb b x) && bmem B b)%bool.
Proof.
  intros H. unfold brem. destruct (vput_ok B x false H) as (B' & -> & L & G). exists B'. split; [reflexivity|]. split; [exact L|]. intros b. destruct (le_lt_dec (length B) b) as [Q|Q].
  - rewrite !bmem_over by lia. rewrite andb_false_r. reflexivity.
  - specialize (G b). rewrite !bmem_get in G by lia. destruct (Nat.eqb b x); cbn [negb andb]; congruence.
Qed.

Section Bases.
Variables (n : nat) (C : nat -> nat -> Z) (s : rootsys).
Hypothesis n1 : (1 <= n <= 32)%nat.
Hypothesis gd : good n C.
Hypothesis gd' : good n (flip C).
Hypothesis Y : system n C s.
Hypothesis So : StronglySorted before (map (order (s_prefer s)) (s_ri s)).
Notation np := (num_pos s).
Notation ri := (s_ri s).
Notation rt := (rt s).
Notation crt := (crt s).
Variable mB : nat -> bool.
Notation In_B := (fun a => mB a = true).
Hypothesis B_lt : forall a, mB a = true -> (a < 2 * np)%nat.
Hypothesis B_refl : forall a b c, mB a = true -> mB b = true -> (c < 2 * np)%nat -> rt c = reflect n C (rt a) (crt a) (rt b) -> mB c = true.
Notation posB := (posB s In_B).
Notation decomp := (decomp n s In_B).
Notation smp := (smp n C s In_B).
Lemma posB_dec a : {posB a} + {~ posB a}.
Proof. unfold RootOrder.posB. destruct (mB a); [|right; intros [Q _]; discriminate]. destruct (le_dec np a); [left; split; [reflexivity|assumption]|right; intros [_ Q]; contradiction]. Qed.
Lemma decomp_dec a : {decomp a} + {~ decomp a}.
Proof.
  destruct (Exists_dec (fun p => posB (fst p) /\ posB (snd p) /\ rt a = plus n (rt (fst p)) (rt (snd p))) (list_prod (seq 0 (2 * np)) (seq 0 (2 * np)))) as [E|E].
  - intros [b c]. cbn [fst snd]. destruct (posB_dec b); [|right; tauto]. destruct (posB_dec c); [|right; tauto]. destruct (list_eq_dec Z.eq_dec (rt a) (plus n (rt b) (rt c))); [left; tauto|right; tauto].
  - left. apply Exists_exists in E. destruct E as ([b c] & _ & P). exists b, c. exact P.
  - right. intros (b & c & Pb & Pc & Q). apply E. apply Exists_exists. exists (b, c). split; [|split; [exact Pb|split; [exact Pc|exact Q]]].
    apply in_prod; apply in_seq; pose proof (pos_range n s n1 In_B B_lt b Pb); pose proof (pos_range n s n1 In_B B_lt c Pc); lia.
Qed.
Lemma smp_iff a : posB a -> (smp a <-> ~ decomp a). Proof. apply (smp_indecomp n C s n1 gd Y In_B B_lt B_refl). Qed.
Lemma smp_dec a : posB a -> smp a \/ decomp a.
Proof. intros P. destruct (decomp_dec a) as [D|D]; [right; exact D|left; apply smp_iff; assumption]. Qed.
(** every positive root of the set is a sum of simple ones *)
Lemma sums b : posB b -> exists ms, Forall smp ms /\ rt b = vsum n (map rt ms).
Proof.
  remember (Z.to_nat (height (rt b))) as h eqn:Eh. revert b Eh. induction h as [h IH] using lt_wf_ind. intros b -> P. destruct (smp_dec b P) as [S|(c & d & Pc & Pd & E)].
  - exists [b]. split; [constructor; [exact S|constructor]|]. cbn. symmetry. apply vec_ext; [rewrite plus_length; symmetry; apply (rt_length n C s gd Y); apply B_lt; apply P|].
    intros k _. rewrite co_plus by (rewrite ?repeat_length; try reflexivity; apply (rt_length n C s gd Y); apply B_lt; apply P). rewrite co_zero. lia.
  - destruct (decomp_height n C s n1 gd Y In_B B_lt b c d Pc Pd E) as (H & H1 & H2).
    destruct (IH (Z.to_nat (height (rt c))) ltac:(lia) c eq_refl Pc) as (l & Fl & El). destruct (IH (Z.to_nat (height (rt d))) ltac:(lia) d eq_refl Pd) as (l' & Fl' & El').
    exists (l ++ l'). split; [apply Forall_app; split; assumption|]. rewrite E, El, El', map_app. symmetry. apply vsum_app. apply Forall_forall. intros v I. apply in_map_iff in I. destruct I as (x & <- & Ix).
    apply (rt_length n C s gd Y). apply B_lt. apply (proj1 (proj1 (Forall_forall _ _) Fl x Ix)).
Qed.
Lemma smp_below d b : smp d -> posB b -> b <> d -> 0 < value n C (rt b) (crt d) -> (d < b)%nat.
Proof.
  intros Sd P Nd V. pose proof (proj1 Sd) as PBd. pose proof (pos_range n s n1 In_B B_lt d PBd) as Hd. pose proof (pos_range n s n1 In_B B_lt b P) as Hb.
  destruct (refl_nr n C s n1 gd Y d b ltac:(lia) ltac:(lia)) as (c & Hc & Ec). pose proof (proj2 Sd b c P Nd Hc Ec) as Lc.
  destruct (reflected_height n C s gd Y d b c ltac:(lia) ltac:(lia) Hc Ec) as [H1 H2]. destruct (rt_height n C s n1 gd Y c ltac:(lia)) as [P1 P2]. destruct (rt_height n C s n1 gd Y d Hd) as [P3 P4].
  pose proof (proj1 (proj2 (value_sym0 n C s gd Y b d ltac:(lia) ltac:(lia))) V) as V'.
  apply (ord_lt n s n1 So); [exact Hd|exact Hb|]. left. rewrite !(ord_cases s So). destruct (s_prefer s); nia.
Qed.
Lemma descend b : posB b -> ~ smp b -> exists d, smp d /\ 0 < value n C (rt b) (crt d) /\ (d < b)%nat.
Proof.
  intros P N. pose proof (pos_range n s n1 In_B B_lt b P) as Hb. destruct (proj1 (proj2 gd)) as (dd & D1 & D2 & D3).
  destruct (sums b P) as (ms & F & E).
  assert (Q : exists d, In d ms /\ 0 < fm n C dd (co (rt b)) (co (rt d))).
  { assert (Pos : 0 < fm n C dd (co (rt b)) (co (vsum n (map rt ms)))). { rewrite <- E. apply (fm_pos n C dd D3). destruct (root_nonzero n C dd (proj1 gd) D1 D2 _ _ (rt_rc n C s gd Y b ltac:(lia))) as (k & Hk & Nk). exists k. split; assumption. }
    clear E. induction ms as [|x t IH].
    - exfalso. cbn in Pos. assert (Z0 : fm n C dd (co (rt b)) (co (repeat 0 n)) = 0); [|lia].
      unfold fm. apply zsum_zero. intros i _. apply zsum_zero. intros j _. rewrite co_zero. lia.
    - cbn [map vsum fold_right] in Pos. change (fold_right (plus n) (repeat 0 n) (map rt t)) with (vsum n (map rt t)) in Pos.
      assert (Lx : length (rt x) = n) by (apply (rt_length n C s gd Y); apply B_lt; apply (proj1 (proj1 (Forall_forall _ _) F x (or_introl eq_refl)))).
      rewrite (fm_ext n C dd _ (co (rt b)) _ (fun k => 1 * co (rt x) k + 1 * co (vsum n (map rt t)) k)) in Pos by (intros; try reflexivity; rewrite co_plus by (try exact Lx; apply vsum_length); lia).
      rewrite (fm_lin_r n C dd D2) in Pos. destruct (Z_lt_le_dec 0 (fm n C dd (co (rt b)) (co (rt x)))) as [Q|Q]; [exists x; split; [left; reflexivity|exact Q]|].
      destruct IH as (d & Id & Pd); [inversion F; assumption|lia|]. exists d. split; [right; exact Id|exact Pd]. }
  destruct Q as (d & Id & Pd). pose proof (proj1 (Forall_forall _ _) F d Id) as Sd. pose proof (proj1 Sd) as PBd. pose proof (pos_range n s n1 In_B B_lt d PBd) as Hd. exists d. split; [exact Sd|].
  destruct (value_form n C dd (proj1 gd) D1 D2 (rt b) _ _ (rt_rc n C s gd Y d ltac:(lia))) as (q & Hq & _ & Ev). rewrite (fm_sym n C dd D2) in Ev. assert (V : 0 < value n C (rt b) (crt d)) by nia. split; [exact V|].
  apply (smp_below d b Sd P); [congruence|exact V].
Qed.
Lemma smp_pair a b : smp a -> smp b -> a <> b -> value n C (rt a) (crt b) <= 0.
Proof.
  intros Sa Sb N. pose proof (proj1 Sa) as Pa. pose proof (proj1 Sb) as Pb. pose proof (pos_range n s n1 In_B B_lt a Pa) as Ha. pose proof (pos_range n s n1 In_B B_lt b Pb) as Hb.
  destruct (Z_lt_le_dec 0 (value n C (rt a) (crt b))) as [V|V]; [|exact V]. exfalso. pose proof (proj1 (proj2 (value_sym0 n C s gd Y a b ltac:(lia) ltac:(lia))) V) as V'.
  destruct (refl_nr n C s n1 gd Y a b ltac:(lia) ltac:(lia)) as (c & Hc & Ec). destruct (refl_nr n C s n1 gd Y b a ltac:(lia) ltac:(lia)) as (d & Hd & Ed).
  pose proof (proj2 Sa b c Pb ltac:(congruence) Hc Ec) as Lc. pose proof (proj2 Sb a d Pa N Hd Ed) as Ld. apply (sign_height n C s n1 gd Y c Hc) in Lc. apply (sign_height n C s n1 gd Y d Hd) in Ld.
  pose proof (proj1 (reflected_height n C s gd Y a b c ltac:(lia) ltac:(lia) Hc Ec)). pose proof (proj1 (reflected_height n C s gd Y b a d ltac:(lia) ltac:(lia) Hd Ed)).
  destruct (rt_height n C s n1 gd Y a Ha). destruct (rt_height n C s n1 gd Y b Hb). nia.
Qed.
(** the effect of a simple root on a candidate *)
Definition hits (a x : nat) : Prop := posB x /\ x <> a /\ 0 < value n C (rt x) (crt a).
Lemma hits_nr a x g : smp a -> posB x -> x <> a -> reflected s a x = Ok g -> (np <= g)%nat /\ ((g < x)%nat <-> hits a x).
Proof.
  intros Sa Px N E. pose proof (pos_range n s n1 In_B B_lt a (proj1 Sa)) as Ha. pose proof (pos_range n s n1 In_B B_lt x Px) as Hx. destruct (reflected_ok n C s n1 gd Y a x ltac:(lia) ltac:(lia)) as (g' & E' & Hg & Eg & _).
  assert (g' = g) by congruence. subst g'. pose proof (proj2 Sa x g Px N Hg Eg) as Lg. split; [exact Lg|]. rewrite (proj1 (reflected_lt n C s n1 gd Y So a x g Ha Hx ltac:(lia) Eg)). unfold hits. tauto.
Qed.
Lemma smp_not_hit a x : smp a -> smp x -> ~ hits a x.
Proof. intros Sa Sx (_ & N & V). pose proof (smp_pair x a Sx Sa N). lia. Qed.
(** the candidates left after the simple roots before number [k] *)
Definition left_at (k : nat) (c : bset) : Prop := length c = (2 * np)%nat /\ forall x, bmem c x = true <-> posB x /\ forall d, smp d -> (d < k)%nat -> ~ hits d x.
Lemma cand_smp k c : left_at k c -> bmem c k = true <-> smp k.
Proof.
  intros [_ A]. rewrite A. split.
  - intros [P H]. destruct (smp_dec k P) as [S|D]; [exact S|]. exfalso. assert (N : ~ smp k) by (rewrite (smp_iff k P); tauto).
    destruct (descend k P N) as (d & Sd & V & L). apply (H d Sd L). split; [exact P|]. split; [lia|exact V].
  - intros S. split; [apply S|]. intros d Sd _. apply smp_not_hit; assumption.
Qed.
Lemma left_skip k c : ~ smp k -> left_at k c -> left_at (S k) c.
Proof.
  intros N [L A]. split; [exact L|]. intros x. rewrite A. split; intros [P H]; (split; [exact P|]); intros d Sd Hd; apply H; try exact Sd; try lia. destruct (Nat.eq_dec d k) as [->|]; [contradiction|lia].
Qed.
Variable rs : bset.
Hypothesis rsL : length rs = (2 * np)%nat.
Hypothesis rsB : forall x, bmem rs x = true <-> posB x.
Lemma inner_ok a : smp a -> forall k beta cand, (beta + k = 2 * np)%nat -> length cand = (2 * np)%nat ->
  exists c, basis_inner s a rs k beta cand = Ok c /\ length c = (2 * np)%nat /\ forall x, bmem c x = true <-> bmem cand x = true /\ ~ ((beta <= x)%nat /\ hits a x).
Proof.
  intros Sa. induction k as [|k IH]; intros beta cand Hk Lc; cbn [basis_inner].
  - exists cand. split; [reflexivity|]. split; [exact Lc|]. intros x. split; [|tauto]. intros M. split; [exact M|]. intros [L (P & _)]. pose proof (pos_range n s n1 In_B B_lt x P). lia.
  - assert (Go : forall c0, length c0 = (2 * np)%nat -> (forall x, bmem c0 x = true <-> bmem cand x = true /\ ~ (x = beta /\ hits a x)) ->
      exists c, basis_inner s a rs k (S beta) c0 = Ok c /\ length c = (2 * np)%nat /\ forall x, bmem c x = true <-> bmem cand x = true /\ ~ ((beta <= x)%nat /\ hits a x)).
    { intros c0 L0 A0. destruct (IH (S beta) c0 ltac:(lia) L0) as (c & E & L & A). exists c. split; [exact E|]. split; [exact L|]. intros x. rewrite A, A0. split.
      - intros [[M N1] N2]. split; [exact M|]. intros [Q H]. destruct (Nat.eq_dec x beta) as [->|]; [apply N1; split; [reflexivity|exact H]|apply N2; split; [lia|exact H]].
      - intros [M N1]. split; [split; [exact M|]|]; intros [Q H]; apply N1; (split; [lia|exact H]). }
    destruct (bmem rs beta) eqn:M.
    + pose proof (proj1 (rsB beta) M) as Pb. destruct (Nat.eqb_spec a beta) as [Ea|Na].
      * apply Go; [exact Lc|]. intros x. split; [intros Q; split; [exact Q|]; intros [-> (_ & N & _)]; congruence|tauto].
      * destruct (reflected_ok n C s n1 gd Y a beta) as (g & Eg & Hg & _); [pose proof (pos_range n s n1 In_B B_lt a (proj1 Sa)); lia|pose proof (pos_range n s n1 In_B B_lt beta Pb); lia|]. rewrite Eg. cbn [bind].
        destruct (hits_nr a beta g Sa Pb ltac:(congruence) Eg) as [Pg Hh]. destruct (Nat.ltb_spec g beta) as [Lg|Lg].
        -- unfold is_pos. destruct (Nat.leb_spec np g); [|lia]. destruct (brem_ok cand beta ltac:(lia)) as (c0 & -> & L0 & A0). cbn [bind]. apply Go; [lia|]. intros x. rewrite A0, andb_true_iff, negb_true_iff, Nat.eqb_neq.
           split; [intros [N Q]; split; [exact Q|]; intros [E _]; contradiction|]. intros [Q N]. split; [|exact Q]. intros ->. apply N. split; [reflexivity|]. apply Hh. exact Lg.
        -- apply Go; [exact Lc|]. intros x. split; [intros Q; split; [exact Q|]; intros [-> H]; apply Hh in H; lia|tauto].
    + apply Go; [exact Lc|]. intros x. split; [intros Q; split; [exact Q|]; intros [-> (P & _)]; apply rsB in P; congruence|tauto].
Qed.
Lemma outer_ok : forall k alpha cand, (alpha + k = 2 * np)%nat -> left_at alpha cand -> exists c, basis_outer s rs k alpha cand = Ok c /\ left_at (2 * np) c.
Proof.
  induction k as [|k IH]; intros alpha cand Hk A; cbn [basis_outer].
  - exists cand. split; [reflexivity|]. replace (2 * np)%nat with alpha by lia. exact A.
  - pose proof (cand_smp alpha cand A) as Q. destruct (bmem cand alpha) eqn:M.
    + pose proof (proj1 Q eq_refl) as Sa. rewrite rsL. destruct (inner_ok alpha Sa (2 * np)%nat 0%nat cand ltac:(lia) (proj1 A)) as (c & -> & L & Ac). cbn [bind].
      assert (A' : left_at (S alpha) c).
      { split; [exact L|]. intros x. rewrite Ac, (proj2 A x). split.
        - intros [[P H] N]. split; [exact P|]. intros d Sd Hd Hx. destruct (Nat.eq_dec d alpha) as [->|]; [apply N; split; [lia|exact Hx]|apply (H d Sd); [lia|exact Hx]].
        - intros [P H]. split; [split; [exact P|]; intros d Sd Hd; apply (H d Sd); lia|]. intros [_ Hx]. apply (H alpha Sa); [lia|exact Hx]. }
      assert (Mc : bmem c alpha = true). { apply (proj2 A'). split; [apply Sa|]. intros d Sd _. apply smp_not_hit; assumption. }
      rewrite Mc. apply IH; [lia|exact A'].
    + apply IH; [lia|]. apply left_skip; [|exact A]. intros S. apply Q in S. discriminate.
Qed.
Lemma left_end c : left_at (2 * np) c -> forall x, bmem c x = true <-> smp x.
Proof.
  intros [L A] x. rewrite A. split.
  - intros [P H]. pose proof (pos_range n s n1 In_B B_lt x P) as Hx. destruct (smp_dec x P) as [S|D]; [exact S|]. exfalso. assert (N : ~ smp x) by (rewrite (smp_iff x P); tauto).
    destruct (descend x P N) as (d & Sd & V & Ld). apply (H d Sd ltac:(lia)). split; [exact P|]. split; [lia|exact V].
  - intros S. split; [apply S|]. intros d Sd _. apply smp_not_hit; assumption.
Qed.
Variable ps : bset.
Hypothesis psL : length ps = np.
Hypothesis psB : forall x, bmem ps x = true <-> posB (np + x).
Definition left_pos (k : nat) (c : bset) : Prop := length c = np /\ forall x, bmem c x = true <-> posB (np + x) /\ forall d, smp d -> (d < np + k)%nat -> ~ hits d (np + x).
Lemma posB_sub d : posB d -> (np + (d - np) = d)%nat. Proof. intros [_ L]. lia. Qed.
Lemma cand_smp' k c : left_pos k c -> bmem c k = true <-> smp (np + k)%nat.
Proof.
  intros [_ A]. rewrite A. split.
  - intros [P H]. destruct (smp_dec _ P) as [S|D]; [exact S|]. exfalso. assert (N : ~ smp (np + k)) by (rewrite (smp_iff _ P); tauto).
    destruct (descend _ P N) as (d & Sd & V & L). apply (H d Sd L). split; [exact P|]. split; [lia|exact V].
  - intros S. split; [apply S|]. intros d Sd _. apply smp_not_hit; assumption.
Qed.
Lemma left_skip' k c : ~ smp (np + k) -> left_pos k c -> left_pos (S k) c.
Proof.
  intros N [L A]. split; [exact L|]. intros x. rewrite A. split; intros [P H]; (split; [exact P|]); intros d Sd Hd; apply H; try exact Sd; try lia. destruct (Nat.eq_dec d (np + k)) as [->|]; [contradiction|lia].
Qed.
Lemma inner_ok' a : smp (np + a)%nat -> forall k b cur, (b + k = np)%nat -> (a < b)%nat -> length cur = np -> (forall x, bmem cur x = true -> posB (np + x)) ->
  exists c, simples_inner s (np + a) k b cur = Ok (c, true) /\ length c = np /\ forall x, bmem c x = true <-> bmem cur x = true /\ ~ ((b <= x)%nat /\ hits (np + a) (np + x)).
Proof.
  intros Sa. induction k as [|k IH]; intros b cur Hk Hab Lc Cp; cbn [simples_inner].
  - exists cur. split; [reflexivity|]. split; [exact Lc|]. intros x. split; [|tauto]. intros M. split; [exact M|]. intros [L (P & _)]. pose proof (pos_range n s n1 In_B B_lt _ P). lia.
  - assert (Go : forall c0, length c0 = np -> (forall x, bmem c0 x = true <-> bmem cur x = true /\ ~ (x = b /\ hits (np + a) (np + x))) ->
      exists c, simples_inner s (np + a) k (S b) c0 = Ok (c, true) /\ length c = np /\ forall x, bmem c x = true <-> bmem cur x = true /\ ~ ((b <= x)%nat /\ hits (np + a) (np + x))).
    { intros c0 L0 A0. destruct (IH (S b) c0 ltac:(lia) ltac:(lia) L0) as (c & E & L & A); [intros x M; apply A0 in M; apply Cp; apply M|]. exists c. split; [exact E|]. split; [exact L|]. intros x. rewrite A, A0. split.
      - intros [[M N1] N2]. split; [exact M|]. intros [Q H]. destruct (Nat.eq_dec x b) as [->|]; [apply N1; split; [reflexivity|exact H]|apply N2; split; [lia|exact H]].
      - intros [M N1]. split; [split; [exact M|]|]; intros [Q H]; apply N1; (split; [lia|exact H]). }
    destruct (bmem cur b) eqn:M.
    + pose proof (Cp b M) as Pb. cbv zeta. unfold pos_nr.
      destruct (reflected_ok n C s n1 gd Y (np + a) (np + b)) as (g & Eg & Hg & _); [pose proof (pos_range n s n1 In_B B_lt _ (proj1 Sa)); lia|pose proof (pos_range n s n1 In_B B_lt _ Pb); lia|]. rewrite Eg. cbn [bind].
      destruct (hits_nr (np + a) (np + b) g Sa Pb ltac:(lia) Eg) as [Pg Hh]. destruct (Nat.ltb_spec g (np + b)) as [Lg|Lg].
      * unfold is_pos. destruct (Nat.leb_spec np g); [|lia]. destruct (brem_ok cur b ltac:(lia)) as (c0 & -> & L0 & A0). cbn [bind]. apply Go; [lia|]. intros x. rewrite A0, andb_true_iff, negb_true_iff, Nat.eqb_neq.
        split; [intros [N Q]; split; [exact Q|]; intros [E _]; contradiction|]. intros [Q N]. split; [|exact Q]. intros ->. apply N. split; [reflexivity|]. apply Hh. exact Lg.
      * apply Go; [exact Lc|]. intros x. split; [intros Q; split; [exact Q|]; intros [-> H]; apply Hh in H; lia|tauto].
    + apply Go; [exact Lc|]. intros x. split; [intros Q; split; [exact Q|]; intros [-> _]; congruence|tauto].
Qed.
Lemma left_0 : left_pos 0 ps.
Proof.
  split; [exact psL|]. intros x. rewrite psB. split; [|tauto]. intros P. split; [exact P|]. intros d Sd Hd. pose proof (proj2 (proj1 Sd)). lia.
Qed.
Lemma left_step a c c' : smp (np + a) -> left_pos a c -> length c' = np -> (forall x, bmem c' x = true <-> bmem c x = true /\ ~ ((S a <= x)%nat /\ hits (np + a) (np + x))) -> left_pos (S a) c'.
Proof.
  intros Sa A L Ac. split; [exact L|]. intros x. rewrite Ac, (proj2 A x). split.
  - intros [[P H] N]. split; [exact P|]. intros d Sd Hd Hx. destruct (Nat.eq_dec d (np + a)) as [->|]; [|apply (H d Sd); [lia|exact Hx]]. apply N. split; [|exact Hx].
    pose proof (smp_below (np + a) (np + x) Sa P (proj1 (proj2 Hx)) (proj2 (proj2 Hx))). lia.
  - intros [P H]. split; [split; [exact P|]; intros d Sd Hd; apply (H d Sd); lia|]. intros [_ Hx]. apply (H (np + a)%nat Sa); [lia|exact Hx].
Qed.
Lemma pos_simples_sys : exists l, pos_simples s ps = Ok l /\ StronglySorted lt l /\ forall x, In x l <-> smp x.
Proof.
  unfold pos_simples. cbv zeta.
  assert (G : gives (upto (length ps) 0 (fun a '(cur, out) => if bmem cur a then run t <- simples_inner s (pos_nr np a) (length ps - S a) (S a) cur; let '(c, done) := t in Ok (c, if done : bool then out ++ [pos_nr np a] else out) else Ok (cur, out)) (ps, []))
    (fun q => left_pos np (fst q) /\ StronglySorted lt (snd q) /\ forall x, In x (snd q) <-> smp x /\ (x < np + np)%nat) none).
  { rewrite psL. apply (gives_upto0 (fun a q => left_pos a (fst q) /\ StronglySorted lt (snd q) /\ forall x, In x (snd q) <-> smp x /\ (x < np + a)%nat)).
    - split; [exact left_0|]. split; [constructor|]. cbn. intros x. split; [tauto|]. intros [Sx L]. pose proof (proj2 (proj1 Sx)). lia.
    - intros a [cur out] Ha (A & So' & I). cbn [fst snd] in *. pose proof (cand_smp' a cur A) as Q. destruct (bmem cur a) eqn:M.
      + pose proof (proj1 Q eq_refl) as Sa. unfold pos_nr. destruct (inner_ok' a Sa (np - S a) (S a) cur ltac:(lia) ltac:(lia) (proj1 A)) as (c & E & L & Ac); [intros x Mx; apply (proj2 A x) in Mx; apply Mx|].
        rewrite E. cbn [bind gives fst snd]. split; [exact (left_step a cur c Sa A L Ac)|]. split.
        * apply sorted_snoc; [exact So'|]. intros y Iy. apply I in Iy. lia.
        * intros x. rewrite in_app_iff, I. cbn [In]. split; [intros [[S L']|[<-|[] ] ]; (split; [assumption|lia])|]. intros [S L']. destruct (Nat.eq_dec x (np + a)) as [->|]; [right; left; reflexivity|left; split; [exact S|lia]].
      + cbn [gives fst snd]. split; [apply left_skip'; [|exact A]; intros S; apply Q in S; discriminate|]. split; [exact So'|]. intros x. rewrite I. split; [intros [S L]; split; [exact S|lia]|].
        intros [S L]. split; [exact S|]. destruct (Nat.eq_dec x (np + a)) as [->|]; [apply Q in S; discriminate|lia].
    - intros q H. exact H. }
  apply gives_none in G. destruct G as (q & -> & _ & So' & I). cbn [bind]. exists (snd q). split; [reflexivity|]. split; [exact So'|]. intros x. rewrite I. split; [tauto|]. intros S. split; [exact S|].
  pose proof (pos_range n s n1 In_B B_lt x (proj1 S)). lia.
Qed.
End Bases.
