(** Automorphisms, reflection words, descents and dominant roots. *)

From Coq Require Import List Arith ZArith Bool Lia Sorted.
From Verif Require Import VecModel VecProofs RunModel RunProofs MatModel MatSpec MatRing MatLin MatProofs MatOps SizeModel BitsetSpec DynBits DynkinModel LieTypeSpec RatVecMore RootModel RootSpec RootMath RootForm RootFin RootBase RootGen RootCo RootPerm RootMake RootSys RootAcc.
Import ListNotations.
Local Open Scope Z_scope.

(** ** Linear maps *)
Section Linear.
Variables (n : nat) (C : nat -> nat -> Z) (f c : nat -> list Z).
Hypothesis fl : forall i, (i < n)%nat -> length (f i) = n.
Lemma linear_length v : length (linear n f v) = n. Proof. unfold linear. rewrite map_length, seq_length. reflexivity. Qed.
Lemma co_linear v k : (k < n)%nat -> co (linear n f v) k = zsum n (fun i => co v i * co (f i) k). Proof. intros H. unfold linear. rewrite co_map by exact H. reflexivity. Qed.
Lemma linear_basis i : (i < n)%nat -> linear n f (basis n i) = f i.
Proof.
  intros Hi. apply vec_ext; [rewrite linear_length, fl by exact Hi; reflexivity|]. rewrite linear_length. intros k Hk. rewrite co_linear by exact Hk.
  rewrite (zsum_ext n _ (fun j => (if Nat.eqb j i then 1 else 0) * co (f j) k)) by (intros j Hj; rewrite co_basis by exact Hi; reflexivity).
  rewrite zsum_pick. destruct (Nat.ltb_spec i n); [reflexivity|lia].
Qed.
Lemma linear_opp v : linear n f (opp v) = opp (linear n f v).
Proof.
  apply vec_ext; [rewrite opp_length, !linear_length; reflexivity|]. rewrite linear_length. intros k Hk. rewrite co_opp, !co_linear by exact Hk.
  replace (- zsum n (fun i => co v i * co (f i) k)) with (-1 * zsum n (fun i => co v i * co (f i) k)) by lia. rewrite <- zsum_mul_l. apply zsum_ext. intros i _. rewrite co_opp. lia.
Qed.
Lemma value_linear v w : value n C (linear n f v) w = zsum n (fun i => co v i * value n C (f i) w).
Proof.
  unfold value. rewrite (zsum_ext n _ (fun k => zsum n (fun i => co v i * (co (f i) k * zsum n (fun j => C k j * co w j))))).
  - rewrite zsum_swap. apply zsum_ext. intros i Hi. rewrite zsum_mul_l. f_equal. apply zsum_ext. intros k Hk. rewrite <- zsum_mul_l. apply zsum_ext. intros j _. lia.
  - intros k Hk. rewrite co_linear by exact Hk.
    rewrite (zsum_ext n _ (fun j => zsum n (fun i => co v i * co (f i) k) * (C k j * co w j))) by (intros j _; lia). rewrite zsum_mul_l, Z.mul_comm, <- zsum_mul_l. apply zsum_ext. intros i _. lia.
Qed.
Lemma linear_sr i v : (i < n)%nat -> length v = n -> (forall j, (j < n)%nat -> value n C (f j) (c i) = C j i) -> linear n f (sreflect n C i v) = reflect n C (f i) (c i) (linear n f v).
Proof.
  intros Hi L H. assert (E : value n C (linear n f v) (c i) = pairing n C v i). { rewrite value_linear. unfold pairing. apply zsum_ext. intros j Hj. rewrite H by exact Hj. reflexivity. }
  unfold reflect. rewrite E. apply vec_ext; [rewrite linear_length, away_length; reflexivity|]. rewrite linear_length. intros k Hk. rewrite co_away by (try apply linear_length; apply fl; exact Hi).
  rewrite !co_linear by exact Hk.
  rewrite (zsum_bump n _ (fun j => co v j * co (f j) k) i (- pairing n C v i * co (f i) k)); [lia|exact Hi|].
  intros j Hj. rewrite co_sr by lia. destruct (Nat.eqb_spec j i) as [->|]; lia.
Qed.
End Linear.
Lemma vec_zero n v : length v = n -> (forall k, (k < n)%nat -> co v k = 0) -> v = repeat 0 n.
Proof.
  intros L H. apply vec_ext; [rewrite repeat_length; exact L|]. intros k Hk. rewrite H by lia. unfold co. symmetry. destruct (nth_in_or_default k (repeat 0 n) 0) as [I|E]; [apply repeat_spec in I; exact I|exact E].
Qed.

Section Ext.
Variables (n : nat) (C : nat -> nat -> Z) (s : rootsys).
Hypothesis n1 : (1 <= n <= 32)%nat.
Hypothesis gd : good n C.
Hypothesis gd' : good n (flip C).
Hypothesis Y : system n C s.
Notation np := (num_pos s).
Notation ri := (s_ri s).
Notation rt := (rt s).
Notation crt := (crt s).
Notation pair := (pairing n C).
Notation sr := (sreflect n C).

(** a positive root that is not simple goes to a smaller positive root *)
Lemma down_step a x : (np + n <= a < 2 * np)%nat -> get ri (a - np) = Some x -> let i := nfirst (r_desc x) in (i < n)%nat /\
  exists b, simple_reflected s i a = Ok b /\ (np <= b < a)%nat /\ rt a = sr i (rt b) /\ crt a = sreflect n (flip C) i (crt b).
Proof.
  intros Ha G. cbv zeta. destruct (y_table _ _ _ Y) as [link T]. destruct (desc_first n C link ri n1 gd T _ x G) as [_ Hi]. split; [exact Hi|].
  destruct (down_link n C link ri n1 gd T _ x G ltac:(lia)) as (b & z & _ & Lb & Gz & Er & Ec). set (i := nfirst (r_desc x)) in *.
  destruct (simple_reflected_ok n C s n1 gd Y i a Hi ltac:(lia)) as (c & E & Hc & R & R'). exists c. split; [exact E|].
  assert (Ex : rt a = r_root x) by (rewrite <- (rt_pos s _ x G); f_equal; unfold pos_nr; lia).
  assert (Ez : rt (pos_nr np b) = r_root z) by apply (rt_pos s _ z Gz).
  assert (Hb : (pos_nr np b < 2 * np)%nat) by (unfold pos_nr, num_pos; pose proof (get_lt _ _ _ Gz); lia).
  assert (Lz : length (r_root z) = n) by (apply (root_coroot_length n C _ _ (proj1 (t_rc _ _ _ _ T _ z Gz)))).
  assert (Ecb : c = pos_nr np b). { apply (rt_inj n C s n1 Y); [exact Hc|exact Hb|]. rewrite R, Ex, Er, Ez. apply sr_sr; [exact (proj1 gd)|exact Hi|exact Lz]. }
  split; [rewrite Ecb; unfold pos_nr; lia|]. split.
  - rewrite R. symmetry. apply sr_sr; [exact (proj1 gd)|exact Hi|apply (rt_length n C s gd Y); lia].
  - rewrite R'. symmetry. apply sr_sr; [exact (proj1 gd')|exact Hi|apply (crt_length n C s gd Y); lia].
Qed.

(** ** Extension of a map on the simple roots *)
Section Extend.
Variable im : list nat.
Hypothesis imn : length im = n.
Hypothesis im_lt : forall i, (i < n)%nat -> (nth i im 0 < 2 * np)%nat.
Hypothesis im_C : forall i j, (i < n)%nat -> (j < n)%nat -> value n C (rt (nth i im 0%nat)) (crt (nth j im 0%nat)) = C i j.
Definition fi (i : nat) : list Z := rt (nth i im 0%nat).
Definition image_of (r : list nat) (a : nat) : Prop := exists b, get r a = Some b /\ (b < 2 * np)%nat /\ rt b = linear n fi (rt a).
Lemma vput_image (r : list nat) a b : length r = (2 * np)%nat -> (a < 2 * np)%nat -> (b < 2 * np)%nat -> rt b = linear n fi (rt a) ->
  exists r', vput r a b = Ok r' /\ length r' = (2 * np)%nat /\ image_of r' a /\ forall k, k <> a -> get r' k = get r k.
Proof.
  intros L Ha Hb E. destruct (vput_ok r a b ltac:(lia)) as (r' & -> & L' & G). exists r'. split; [reflexivity|]. split; [lia|]. split.
  - exists b. rewrite G, Nat.eqb_refl. split; [reflexivity|split; [exact Hb|exact E]].
  - intros k N. rewrite G. destruct (Nat.eqb_spec k a); [contradiction|reflexivity].
Qed.
Lemma extend_ok : exists r, extend_to_roots s im = Ok r /\ length r = (2 * np)%nat /\ forall a, (a < 2 * np)%nat -> image_of r a.
Proof.
  unfold extend_to_roots. apply gives_none. pose proof (np_n n C s n1 Y) as Np. rewrite (y_rank _ _ _ Y).
  assert (fl : forall i, (i < n)%nat -> length (fi i) = n) by (intros i Hi; apply (rt_length n C s gd Y); apply im_lt; exact Hi).
  assert (Gi : forall i, (i < n)%nat -> vget im i = Ok (nth i im 0%nat)) by (intros i Hi; apply vget_ok; unfold get; apply nth_error_nth'; lia).
  apply (gives_bind _ _ (fun r => length r = (2 * np)%nat /\ forall a, (np <= a < np + n)%nat -> image_of r a)).
  { apply (gives_upto0 (fun k r => length r = (2 * np)%nat /\ forall a, (np <= a < np + k)%nat -> image_of r a)).
    - split; [apply repeat_length|]. intros a H. lia.
    - intros k r Hk [L A]. rewrite (Gi k Hk). cbn [bind]. destruct (rt_simple n C s n1 gd Y k Hk) as (Hp & E & _).
      destruct (vput_image r (pos_nr np k) (nth k im 0%nat) L Hp (im_lt k Hk)) as (r' & -> & L' & I & O). { rewrite E, linear_basis by (try exact fl; exact Hk). reflexivity. }
      cbn [gives]. split; [exact L'|]. intros a Ha. destruct (Nat.eq_dec a (pos_nr np k)) as [->|N]; [exact I|]. unfold image_of. rewrite O by exact N. apply A. unfold pos_nr in N. lia.
    - intros r Q. exact Q. }
  intros r1 [L1 A1]. apply (gives_bind _ _ (fun r => length r = (2 * np)%nat /\ forall a, (np <= a < 2 * np)%nat -> image_of r a)).
  { eapply gives_mono; [apply (gives_upto (fun k r => length r = (2 * np)%nat /\ forall a, (np <= a < k)%nat -> image_of r a))|].
    - split; assumption.
    - intros k r Hk [L A]. destruct (pos_info n C s n1 Y k ltac:(lia)) as (x & G & _). rewrite (vget_ok _ _ _ G). cbn [bind].
      destruct (down_step k x ltac:(lia) G) as (Hi & b & Eb & Hb & Er & _). set (i := nfirst (r_desc x)) in *. rewrite Eb. cbn [bind]. rewrite (Gi i Hi). cbn [bind].
      destruct (A b ltac:(lia)) as (rb & Gb & Hrb & Erb). rewrite (vget_ok _ _ _ Gb). cbn [bind].
      destruct (reflected_ok n C s n1 gd Y _ rb (im_lt i Hi) Hrb) as (y & -> & Hy & Ry & _). cbn [bind].
      destruct (vput_image r k y L ltac:(lia) Hy) as (r' & -> & L' & I & O).
      { rewrite Ry, Er, Erb. symmetry. apply (linear_sr n C fi (fun i => crt (nth i im 0%nat)) fl); [exact Hi|apply (rt_length n C s gd Y); lia|]. intros j Hj. apply im_C; assumption. }
      cbn [gives]. split; [exact L'|]. intros a Ha. destruct (Nat.eq_dec a k) as [->|N]; [exact I|]. unfold image_of. rewrite O by exact N. apply A. lia.
    - intros r [L A]. split; [exact L|]. intros a Ha. apply A. lia. }
  intros r2 [L2 A2]. apply (gives_upto0 (fun k r => length r = (2 * np)%nat /\ forall a, (a < k \/ np <= a < 2 * np)%nat -> image_of r a)).
  - split; [exact L2|]. intros a Ha. apply A2. lia.
  - intros k r Hk [L A]. destruct (rt_minus n s n1 k ltac:(lia)) as (Hm & Em & _). destruct (A (minus_nr np k)) as (b & Gb & Hb & Eb); [unfold minus_nr in *; lia|].
    rewrite (vget_ok _ _ _ Gb). cbn [bind]. destruct (rt_minus n s n1 b Hb) as (Hmb & Emb & _).
    destruct (vput_image r k (minus_nr np b) L ltac:(lia) Hmb) as (r' & -> & L' & I & O). { rewrite Emb, Eb, Em, linear_opp, opp_opp. reflexivity. }
    cbn [gives]. split; [exact L'|]. intros a Ha. destruct (Nat.eq_dec a k) as [->|N]; [exact I|]. unfold image_of. rewrite O by exact N. apply A. lia.
  - intros r [L A]. split; [exact L|]. intros a Ha. apply A. lia.
Qed.
End Extend.
Lemma twist_ok tw : length tw = n -> (forall i, (i < n)%nat -> (nth i tw 0 < n)%nat) -> (forall i j, (i < n)%nat -> (j < n)%nat -> C (nth i tw 0%nat) (nth j tw 0%nat) = C i j) ->
  exists r, twist_permutation s tw = Ok r /\ length r = (2 * np)%nat /\ forall a, (a < 2 * np)%nat -> exists b, get r a = Some b /\ (b < 2 * np)%nat /\ rt b = linear n (fun i => basis n (nth i tw 0%nat)) (rt a).
Proof.
  intros L B H. unfold twist_permutation. rewrite (y_rank _ _ _ Y), L.
  assert (Q : exists im, upto n 0 (fun i l => run x <- vget tw i; vput l i (pos_nr np x)) (repeat 0%nat n) = Ok im /\ length im = n /\ forall i, (i < n)%nat -> nth i im 0%nat = pos_nr np (nth i tw 0%nat)).
  { apply gives_none. apply (gives_upto0 (fun k im => length im = n /\ forall i, (i < k)%nat -> nth i im 0%nat = pos_nr np (nth i tw 0%nat))).
    - split; [apply repeat_length|intros; lia].
    - intros k im Hk [Li A]. rewrite (vget_ok tw k (nth k tw 0%nat)) by (unfold get; apply nth_error_nth'; lia). cbn [bind].
      destruct (vput_ok im k (pos_nr np (nth k tw 0%nat)) ltac:(lia)) as (im' & -> & Li' & G). cbn [gives]. split; [lia|]. intros i Hi. specialize (G i). unfold get in G.
      destruct (Nat.eqb_spec i k) as [E0|N]; [apply nth_error_nth; rewrite G, E0; reflexivity|]. rewrite <- (A i ltac:(lia)). destruct (nth_error im i) eqn:E; [|apply nth_error_None in E; lia].
      rewrite (nth_error_nth _ _ _ G), (nth_error_nth _ _ _ E). reflexivity.
    - intros im Q. exact Q. }
  destruct Q as (im & -> & Li & Ei). cbn [bind].
  assert (Rs : forall i, (i < n)%nat -> (nth i im 0 < 2 * np)%nat /\ rt (nth i im 0%nat) = basis n (nth i tw 0%nat) /\ crt (nth i im 0%nat) = basis n (nth i tw 0%nat)).
  { intros i Hi. rewrite Ei by exact Hi. apply (rt_simple n C s n1 gd Y). apply B. exact Hi. }
  destruct (extend_ok im Li) as (r & Er & Lr & A).
  - intros i Hi. apply Rs. exact Hi.
  - intros i j Hi Hj. destruct (Rs i Hi) as (_ & -> & _). destruct (Rs j Hj) as (_ & _ & ->). rewrite value_basis_r by (apply B; exact Hj). rewrite pair_basis by (apply B; exact Hi). apply H; assumption.
  - exists r. split; [exact Er|]. split; [exact Lr|]. intros a Ha. destruct (A a Ha) as (b & Gb & Hb & Eb). exists b. split; [exact Gb|]. split; [exact Hb|]. rewrite Eb.
    unfold linear. apply map_ext. intros k. apply zsum_ext. intros i Hi. unfold fi. destruct (Rs i Hi) as (_ & -> & _). reflexivity.
Qed.

(** ** Words for reflections *)
Lemma append_rev w c : downto (length (w ++ [c]) - 1) (fun i r => run x <- vget r i; Ok (r ++ [x])) (w ++ [c]) = Ok (w ++ [c] ++ rev w : list nat).
Proof.
  assert (K : gives (downto (length (w ++ [c]) - 1) (fun i r => run x <- vget r i; Ok (r ++ [x])) (w ++ [c])) (fun r => r = w ++ [c] ++ rev w) none).
  { apply (gives_downto (fun k r => r = w ++ [c] ++ rev (skipn k w))).
    - rewrite app_length. cbn [length]. replace (length w + 1 - 1)%nat with (length w) by lia. rewrite skipn_all. reflexivity.
    - rewrite app_length. cbn [length]. intros k r Hk ->. destruct (get_some w k ltac:(lia)) as [x G]. rewrite (vget_ok _ k x).
      + cbn [bind gives]. assert (Sk : skipn k w = x :: skipn (S k) w).
        { clear - G. unfold get in G. revert k G. induction w as [|y t IH]; intros k G; destruct k; cbn in G |- *; try discriminate; [congruence|]. rewrite (IH k G). reflexivity. }
        rewrite Sk. cbn [rev]. rewrite <- !app_assoc. reflexivity.
      + unfold get in *. rewrite nth_error_app1 by lia. exact G.
    - intros r ->. reflexivity. }
  destruct (gives_none _ _ K) as (r & -> & ->). reflexivity.
Qed.
Lemma word_act_app w w' v : word_act n C (w ++ w') v = word_act n C w (word_act n C w' v). Proof. unfold word_act. apply fold_right_app. Qed.
Lemma word_act_length w v : length (word_act n C w v) = length v. Proof. induction w as [|i t IH]; cbn; [reflexivity|]. rewrite sr_length. exact IH. Qed.
Lemma reflection_word_ok a : (a < 2 * np)%nat -> exists w i, reflection_word s a = Ok (w ++ [i] ++ rev w) /\ Forall (fun i => (i < n)%nat) (w ++ [i]) /\
  forall v, length v = n -> word_act n C (w ++ [i] ++ rev w) v = reflect n C (rt a) (crt a) v.
Proof.
  intros Ha. unfold reflection_word. cbv zeta. pose proof (np_n n C s n1 Y) as Np. rewrite (y_rank _ _ _ Y).
  assert (P : (np <= make_positive s a < 2 * np)%nat /\ forall v, reflect n C (rt (make_positive s a)) (crt (make_positive s a)) v = reflect n C (rt a) (crt a) v).
  { unfold make_positive, is_pos. destruct (Nat.leb_spec np a) as [L|L]; [split; [lia|reflexivity]|]. destruct (rt_minus n s n1 a Ha) as (Hm & E & E'). split; [unfold minus_nr in *; lia|].
    intros v. rewrite E, E'. apply reflect_opp. }
  destruct P as [Pa Pr]. set (a0 := make_positive s a) in *.
  assert (Q : exists q, loop (num_roots s) (fun '(a, w) => Ok (n + np <=? a)%nat) (fun '(a, w) => run x <- vget ri (a - np); run b <- simple_reflected s (nfirst (r_desc x)) a; Ok (b, w ++ [nfirst (r_desc x)])) (a0, []) = Ok q /\
    let '(b, w) := q in (np <= b < np + n)%nat /\ Forall (fun i => (i < n)%nat) w /\ forall v, length v = n -> word_act n C w (reflect n C (rt b) (crt b) (word_act n C (rev w) v)) = reflect n C (rt a0) (crt a0) v).
  { apply gives_none.
    apply (gives_loop (fun q => let '(b, w) := q in (np <= b < 2 * np)%nat /\ Forall (fun i => (i < n)%nat) w /\
        forall v, length v = n -> word_act n C w (reflect n C (rt b) (crt b) (word_act n C (rev w) v)) = reflect n C (rt a0) (crt a0) v) fst (fun q => (n + np <=? fst q)%nat)).
    - split; [exact Pa|]. split; [constructor|]. intros v _. reflexivity.
    - cbn [fst]. unfold num_roots. lia.
    - intros [b w] _. reflexivity.
    - intros [b w] (Hb & W & A) T. cbn [fst] in T |- *. apply Nat.leb_le in T. split; [lia|]. destruct (pos_info n C s n1 Y b Hb) as (x & G & _). rewrite (vget_ok _ _ _ G). cbn [bind].
      destruct (down_step b x ltac:(lia) G) as (Hi & b' & Eb & Hb' & Er & Ec). set (i := nfirst (r_desc x)) in *. rewrite Eb. cbn [bind gives fst].
      split; [|lia]. split; [lia|]. split; [apply Forall_app; split; [exact W|constructor; [exact Hi|constructor]]|].
      intros v Lv. rewrite rev_app_distr. cbn [rev app]. rewrite word_act_app. cbn [word_act fold_right]. rewrite <- (A v Lv). f_equal.
      assert (Lw : length (word_act n C (rev w) v) = n) by (rewrite word_act_length; exact Lv).
      change (fold_right sr v (rev w)) with (word_act n C (rev w) v). set (u := word_act n C (rev w) v) in *.
      rewrite Er, Ec. symmetry. apply (reflect_conj n C (proj1 gd)); [exact Hi|apply (rt_length n C s gd Y); lia|apply (crt_length n C s gd Y); lia|exact Lw].
    - intros [b w] (Hb & W & A) T. cbn [fst] in T. apply Nat.leb_gt in T. split; [lia|]. split; assumption. }
  destruct Q as ([b w] & -> & Hb & W & A). cbn [bind]. exists w, (b - np)%nat. split; [apply append_rev|]. split; [apply Forall_app; split; [exact W|]; constructor; [lia|constructor]|].
  intros v Lv. rewrite <- Pr, <- (A v Lv). rewrite !word_act_app. f_equal. cbn [word_act fold_right]. destruct (rt_simple n C s n1 gd Y (b - np)%nat ltac:(lia)) as (_ & E & E').
  replace (pos_nr np (b - np)) with b in E, E' by (unfold pos_nr; lia). rewrite E, E'. symmetry. apply reflect_simple; [lia|]. rewrite word_act_length. exact Lv.
Qed.
End Ext.
