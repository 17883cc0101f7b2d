(** Generalised inverses of matrices over the field with two elements: proofs *)

From Coq Require Import List Arith NArith ZArith Lia Bool.
From Verif Require Import VecModel VecProofs RunModel RunProofs F2Model F2Spec F2Basics F2Proofs F2Solve F2Kernel.
Import ListNotations.
Open Scope nat_scope.

Section Dim.
Variable dim : nat.

(** *** clearing a row *)

(** [s] is [(col,basis)] after clearing row [p] by column [k] in the columns with [J] *)
Definition cleared (n p : nat) (ck bk : N) (col basis : list N) (J : nat -> bool) (s : list N * list N) : Prop :=
  length (fst s) = n /\ length (snd s) = n /\ forall j, j < n ->
    nth j (fst s) 0%N = (if J j && coord (nth j col 0%N) p then N.lxor (nth j col 0%N) ck else nth j col 0%N) /\
    nth j (snd s) 0%N = (if J j && coord (nth j col 0%N) p then N.lxor (nth j basis 0%N) bk else nth j basis 0%N).
Lemma nth_put {A} (l w : list A) i x d : (forall j, get w j = if j =? i then Some x else get l j) ->
  forall j, nth j w d = if j =? i then x else nth j l d.
Proof.
  intros G j. specialize (G j). destruct (j =? i); [now apply nth_error_nth|].
  destruct (get l j) as [y|] eqn:E.
  - rewrite (nth_error_nth _ _ _ G). symmetry. now apply nth_error_nth.
  - rewrite !nth_overflow; auto; now apply nth_error_None.
Qed.
Lemma clear_at_ok n p k ck bk col basis J j s : p < dim -> j < n -> coord ck p = true ->
  cleared n p ck bk col basis J s ->
  gives (clear_at dim p k ck bk j s) (cleared n p ck bk col basis (fun i => J i || (i =? j))) sure.
Proof.
  intros Hp Hj CK. destruct s as [c b]. intros (L1 & L2 & H). cbn [fst snd] in *. unfold clear_at.
  destruct (H j Hj) as [H1 H2].
  eapply gives_bind; [apply (gives_vget _ _ (nth j c 0%N) (fun y => y = nth j c 0%N)); [apply get_nth; lia|auto]|]. intros ? ->.
  rewrite test_ok by auto. cbn [bind]. destruct (coord (nth j c 0%N) p) eqn:C.
  - assert (JJ : J j = false /\ coord (nth j col 0%N) p = true).
    { rewrite H1 in C. destruct (J j) eqn:EJ; cbn [andb] in C; [exfalso|auto]. destruct (coord (nth j col 0%N) p) eqn:EC; [|congruence].
      rewrite coord_lxor, EC, CK in C. discriminate. }
    destruct JJ as [JJ JC]. rewrite JJ in H1, H2. cbn [andb] in H1, H2.
    eapply gives_bind; [apply (gives_vput c j _ (fun w => length w = n /\ forall i, nth i w 0%N = if i =? j then N.lxor (nth j c 0%N) ck else nth i c 0%N)); [lia|]|].
    { intros w L G. split; [lia|]. now apply nth_put. }
    intros c2 [L3 G3].
    eapply gives_bind; [apply (gives_vget _ _ (nth j b 0%N) (fun y => y = nth j b 0%N)); [apply get_nth; lia|auto]|]. intros ? ->.
    eapply gives_bind; [apply (gives_vput b j _ (fun w => length w = n /\ forall i, nth i w 0%N = if i =? j then N.lxor (nth j b 0%N) bk else nth i b 0%N)); [lia|]|].
    { intros w L G. split; [lia|]. now apply nth_put. }
    intros b2 [L4 G4]. cbn [gives]. split; [auto|]. split; [auto|]. cbn [fst snd]. intros i Hi. rewrite G3, G4.
    destruct (Nat.eqb_spec i j) as [->|N].
    + rewrite orb_true_r, JC. cbn [andb]. now rewrite H1, H2.
    + rewrite orb_false_r. now apply H.
  - cbn [gives]. split; [auto|]. split; [auto|]. cbn [fst snd]. intros i Hi. destruct (Nat.eqb_spec i j) as [->|N]; [|rewrite orb_false_r; now apply H].
    rewrite orb_true_r. cbn [andb]. destruct (J j); cbn [andb orb] in H1, H2; [auto|]. destruct (coord (nth j col 0%N) p) eqn:EC; auto. congruence.
Qed.
Lemma cleared_ext n p ck bk col basis J K s : (forall j, j < n -> J j = K j) -> cleared n p ck bk col basis J s -> cleared n p ck bk col basis K s.
Proof. intros E (A & B & C). split; [auto|]. split; [auto|]. intros j Hj. rewrite <- E by auto. now apply C. Qed.

(** *** the state after [k] columns *)

Record sec_inv (m n : nat) (A : list N) (k : nat) (col basis : list N) (pivots : N) (pc : list (option nat)) : Prop := {
  si_col : length col = n;
  si_basis : length basis = n;
  si_pc : length pc = dim;
  si_within : forall j, j < n -> within m (nth j col 0%N);
  si_bwithin : forall j, j < n -> within n (nth j basis 0%N);
  si_rel : forall j, j < n -> nth j col 0%N = lincomb (coord (nth j basis 0%N)) A;
  si_span : forall u, in_span A u -> in_span col u;
  si_pivot : forall p, coord pivots p = true -> p < m /\ exists j, get pc p = Some (Some j) /\ j < k /\ leads (nth j col 0%N) p;
  si_done : forall j, j < k -> nth j col 0%N = 0%N \/ exists p, coord pivots p = true /\ get pc p = Some (Some j);
  si_clear : forall p j, coord pivots p = true -> j < n -> get pc p <> Some (Some j) -> coord (nth j col 0%N) p = false }.

Lemma init_basis n : n <= dim ->
  gives (upto n 0 (fun i b => run x <- vget b i; run x <- assign dim x i true; vput b i x) (repeat 0%N n))
    (fun b => length b = n /\ forall j i, j < n -> coord (nth j b 0%N) i = (i =? j)) sure.
Proof.
  intros Hn. eapply gives_mono.
  - apply (gives_upto0 (fun k b => length b = n /\ forall j i, j < n -> coord (nth j b 0%N) i = (j <? k) && (i =? j))) with
      (Q := fun b => length b = n /\ forall j i, j < n -> coord (nth j b 0%N) i = (j <? n) && (i =? j)); [| |auto].
    + split; [apply repeat_length|]. intros j i Hj. rewrite nth_repeat. apply coord_0.
    + intros k b Hk [L G].
      eapply gives_bind; [apply (gives_vget _ _ (nth k b 0%N) (fun y => y = nth k b 0%N)); [apply get_nth; lia|auto]|]. intros ? ->.
      destruct (assign_ok dim (nth k b 0%N) k true) as (s & -> & C); [lia|]. cbn [bind].
      apply gives_vput; [lia|]. intros w LW GW. split; [lia|]. intros j i Hj. rewrite (nth_put _ _ _ _ 0%N GW).
      destruct (Nat.eqb_spec j k) as [->|N].
      * rewrite C, G, Nat.ltb_irrefl by auto. replace (k <? S k) with true by (symmetry; apply Nat.ltb_lt; lia). now destruct (i =? k).
      * rewrite G by auto. f_equal. destruct (Nat.ltb_spec j k), (Nat.ltb_spec j (S k)); auto; lia.
  - intros b [L G]. split; [auto|]. intros j i Hj. rewrite G by auto. apply Nat.ltb_lt in Hj. now rewrite Hj.
Qed.

Lemma sec_step m n A k col basis pivots pc col' basis' pc' pivots' cur J :
  sec_inv m n A k col basis pivots pc -> k < n ->
  let ck := nth k col 0%N in let bk := nth k basis 0%N in
  leads ck cur ->
  (forall p, coord pivots' p = if p =? cur then true else coord pivots p) ->
  (forall p, get pc' p = if p =? cur then Some (Some k) else get pc p) -> length pc' = dim ->
  (forall j, j < n -> J j = true <-> k < j \/ exists p, p < cur /\ coord pivots p = true /\ get pc p = Some (Some j)) ->
  cleared n cur ck bk col basis J (col', basis') -> sec_inv m n A (S k) col' basis' pivots' pc'.
Proof.
  intros [L1 L2 L3 W WB REL SP PV DN CL] Hk ck bk HL HP HPC LPC HJ (L4 & L5 & H). cbn [fst snd] in *.
  (* the current column has zeros at the old pivots *)
  assert (KP : forall p, coord pivots p = true -> coord ck p = false).
  { intros p Hp. apply CL; auto. intros E. destruct (PV p Hp) as (_ & j & Ej & Lj & _). rewrite E in Ej. injection Ej as ->. lia. }
  assert (NC : coord pivots cur = false).
  { destruct (coord pivots cur) eqn:E; [|auto]. apply KP in E. destruct HL as [HL _]. congruence. }
  assert (Hcur : cur < m) by (apply (within_lt m ck); [now apply W|apply HL]).
  assert (JK : J k = false).
  { destruct (J k) eqn:E; [|auto]. apply HJ in E; [|auto]. destruct E as [E|(p & _ & Hp & Ep)]; [lia|].
    destruct (PV p Hp) as (_ & j & Ej & Lj & _). rewrite Ep in Ej. injection Ej as ->. lia. }
  assert (CK : nth k col' 0%N = ck) by (destruct (H k Hk) as [X _]; rewrite JK in X; exact X).
  assert (PIV : forall p j, coord pivots p = true -> get pc p = Some (Some j) -> j < k /\ leads (nth j col 0%N) p).
  { intros p j Hp E. destruct (PV p Hp) as (_ & i & Ei & Li & LL). rewrite E in Ei. injection Ei as ->. auto. }
  (* old pivot columns keep their leading positions *)
  assert (KEEP : forall p j, coord pivots p = true -> get pc p = Some (Some j) -> leads (nth j col' 0%N) p).
  { intros p j Hp E. destruct (PIV p j Hp E) as [Lj LL]. assert (Hj : j < n) by lia. destruct (H j Hj) as [X _]. rewrite X.
    destruct (J j && coord (nth j col 0%N) cur) eqn:B; [|auto]. apply andb_true_iff in B as [BJ BC].
    assert (Hpc : p < cur).
    { destruct LL as [A1 A2]. destruct (Nat.lt_trichotomy p cur) as [|[->|Y]]; auto; [congruence|]. rewrite A2 in BC by auto. discriminate. }
    destruct LL as [A1 A2], HL as [B1 B2]. split; [rewrite coord_lxor, A1, B2; auto|]. intros i Hi. rewrite coord_lxor, A2, B2 by lia. auto. }
  (* old pivot rows keep their zeros *)
  assert (OLD : forall p j, coord pivots p = true -> j < n -> coord (nth j col' 0%N) p = coord (nth j col 0%N) p).
  { intros p j Hp Hj. destruct (H j Hj) as [-> _]. destruct (_ && _); [|auto]. rewrite coord_lxor, (KP p Hp). apply xorb_false_r. }
  constructor; auto.
  - intros j Hj. destruct (H j Hj) as [-> _]. destruct (_ && _); [apply within_lxor|]; auto. now apply W.
  - intros j Hj. destruct (H j Hj) as [_ ->]. destruct (_ && _); [apply within_lxor|]; auto. now apply WB.
  - intros j Hj. destruct (H j Hj) as [-> ->]. destruct (_ && _); [|auto].
    rewrite (lincomb_ext _ (fun i => xorb (coord (nth j basis 0%N) i) (coord bk i))) by (intros; apply coord_lxor).
    rewrite lincomb_xor, <- REL by auto. unfold bk. rewrite <- REL by auto. auto.
  - intros u Hu. apply SP in Hu. revert u Hu. apply span_incl. intros x I. apply In_nth with (d := 0%N) in I as (j & Hj & <-).
    assert (IC : forall i, i < n -> in_span col' (nth i col' 0%N)) by (intros; apply span_in, nth_In; lia).
    rewrite L1 in Hj. pose proof (IC j Hj) as X. destruct (H j Hj) as [Y _]. rewrite Y in X. destruct (_ && _); [|auto].
    apply (span_xor_l _ _ ck); [|auto]. rewrite <- CK. now apply IC.
  - intros p. rewrite HP, HPC. destruct (Nat.eqb_spec p cur) as [->|N].
    + intros _. split; [auto|]. exists k. rewrite CK. auto.
    + intros Hp. destruct (PV p Hp) as (X & j & Ej & Lj & _). split; [auto|]. exists j. split; [auto|]. split; [lia|]. now apply KEEP.
  - intros j Hj. destruct (Nat.eq_dec j k) as [->|N].
    + right. exists cur. rewrite HP, HPC, Nat.eqb_refl. auto.
    + destruct (DN j) as [Z|(p & Hp & Ep)]; [lia| |].
      * left. destruct (H j) as [-> _]; [lia|]. rewrite Z, coord_0, andb_false_r. auto.
      * right. exists p. rewrite HP, HPC. destruct (Nat.eqb_spec p cur) as [->|]; [congruence|auto].
  - intros p j. rewrite HP, HPC. destruct (Nat.eqb_spec p cur) as [->|N].
    + intros _ Hj NE. destruct (H j Hj) as [X _]. rewrite X.
      destruct (coord (nth j col 0%N) cur) eqn:CC; [|rewrite andb_false_r; auto].
      assert (J j = true) as ->.
      { apply HJ; [auto|]. destruct (Nat.lt_trichotomy j k) as [Y|[->|Y]]; [|congruence|auto]. right.
        destruct (DN j Y) as [Z|(p & Hp & Ep)]; [rewrite Z, coord_0 in CC; discriminate|]. exists p. split; [|auto].
        destruct (PIV p j Hp Ep) as [_ [A1 A2]]. destruct (Nat.lt_trichotomy p cur) as [|[->|Q]]; auto; [congruence|]. rewrite A2 in CC by auto. discriminate. }
      cbn [andb]. rewrite coord_lxor, CC. destruct HL as [-> _]. auto.
    + intros Hp Hj NE. rewrite OLD by auto. now apply CL.
Qed.

Lemma sec_loop M : rows M <= dim -> ncols M <= dim -> is_matrix (rows M) (ncols M) (cols M) ->
  gives (run basis <- upto (ncols M) 0 (fun i b => run x <- vget b i; run x <- assign dim x i true; vput b i x) (repeat 0%N (ncols M));
    upto (ncols M) 0 (fun k '(col, basis, pivots, pivot_col) =>
    run ck <- vget col k;
    if (ck =? 0)%N then Ok (col, basis, pivots, pivot_col)
    else
      let cur := firstBit ck in
      run pivots <- assign dim pivots cur true;
      run pivot_col <- vput pivot_col cur (Some k);
      run bk <- vget basis k;
      run s <- each (filter (fun p => p <? cur) (positions dim pivots)) (fun p s =>
        run oj <- vget pivot_col p; run j <- of_option oj; clear_at dim cur k ck bk j s) (col, basis);
      run (col, basis) <- upto (ncols M - S k) (S k) (fun j s => clear_at dim cur k ck bk j s) s;
      Ok (col, basis, pivots, pivot_col)) (cols M, basis, 0%N, repeat None dim))
   (fun '(col, basis, pivots, pc) => sec_inv (rows M) (ncols M) (cols M) (ncols M) col basis pivots pc) sure.
Proof.
  intros Hm Hn [_ WM]. set (m := rows M) in *. set (n := ncols M) in *.
  eapply gives_bind; [now apply init_basis|]. intros basis0 [LB CB].
  apply (gives_upto0 (fun k '(col, basis, pivots, pc) => sec_inv m n (cols M) k col basis pivots pc)); [| |intros [[[col basis] pivots] pc]; auto].
  - constructor; auto.
    + apply repeat_length.
    + intros j Hj. apply WM. now apply nth_In.
    + intros j Hj i Hi. rewrite CB by auto. apply Nat.eqb_neq. lia.
    + intros j Hj. rewrite (lincomb_ext _ (fun i => i =? j)) by (intros; now apply CB). symmetry. now apply lincomb_single.
    + intros p. rewrite coord_0. discriminate.
    + lia.
    + intros p j. rewrite coord_0. discriminate.
  - intros k [[[col basis] pivots] pc] Hk I. pose proof I as I0. destruct I as [L1 L2 L3 W WB REL SP PV DN CL].
    eapply gives_bind; [apply (gives_vget _ _ (nth k col 0%N) (fun y => y = nth k col 0%N)); [apply get_nth; lia|auto]|]. intros ? ->.
    destruct (N.eqb_spec (nth k col 0%N) 0) as [E0|E0].
    { cbn [gives]. constructor; auto.
      - intros p Hp. destruct (PV p Hp) as (X & j & Ej & Lj & LL). split; [auto|]. exists j. auto.
      - intros j Hj. destruct (Nat.eq_dec j k) as [->|]; [now left|]. apply DN. lia. }
    pose proof (firstBit_leads _ E0) as HL. set (cur := firstBit (nth k col 0%N)) in *. cbv zeta.
    assert (Hcur : cur < m) by (apply (within_lt m (nth k col 0%N)); [now apply W|apply HL]).
    destruct (assign_ok dim pivots cur true) as (pv' & -> & CP); [lia|]. cbn [bind].
    eapply gives_bind; [apply (gives_vput pc cur (Some k) (fun w => length w = dim /\ forall p, get w p = if p =? cur then Some (Some k) else get pc p)); [lia|]|].
    { intros w LW G. split; [lia|auto]. }
    intros pc' [LP GP].
    eapply gives_bind; [apply (gives_vget _ _ (nth k basis 0%N) (fun y => y = nth k basis 0%N)); [apply get_nth; lia|auto]|]. intros ? ->.
    set (l := filter (fun p => p <? cur) (positions dim pv')).
    assert (IL : forall p, In p l <-> p < cur /\ coord pivots p = true).
    { intros p. unfold l. rewrite filter_In, in_positions, CP, Nat.ltb_lt. destruct (Nat.eqb_spec p cur); intuition; lia. }
    set (at_ := fun (q : list nat) j => existsb (fun p => match nth p pc' None with Some i => j =? i | None => false end) q).
    eapply gives_bind.
    { apply (gives_each (fun i s => cleared n cur (nth k col 0%N) (nth k basis 0%N) col basis (at_ (firstn i l)) s)) with
        (Q := cleared n cur (nth k col 0%N) (nth k basis 0%N) col basis (at_ l)).
      - split; [auto|]. split; [auto|]. intros j Hj. auto.
      - intros i p s Ep HS. assert (Ip : In p l) by (eapply nth_error_In; exact Ep). apply IL in Ip as [P1 P2].
        destruct (PV p P2) as (P3 & j & Ej & Lj & LL).
        assert (E2 : get pc' p = Some (Some j)). { rewrite GP. destruct (Nat.eqb_spec p cur); [lia|auto]. }
        eapply gives_bind; [apply (gives_vget _ _ (Some j) (fun y => y = Some j)); auto|]. intros ? ->. cbn [of_option bind].
        eapply gives_mono; [apply (clear_at_ok n); [lia|lia|apply HL|exact HS]|]. intros s'. apply cleared_ext. intros q Hq.
        rewrite (firstn_S _ _ _ Ep). unfold at_. rewrite existsb_app. cbn [existsb]. rewrite (nth_error_nth _ _ _ E2), orb_false_r. auto.
      - intros s. now rewrite firstn_all. }
    intros s1 H1.
    eapply gives_bind.
    { eapply gives_mono.
      - apply (gives_upto (fun i s => cleared n cur (nth k col 0%N) (nth k basis 0%N) col basis (fun j => at_ l j || ((k <? j) && (j <? i))) s) (n - S k) (S k)).
        + revert H1. apply cleared_ext. intros j Hj. replace ((k <? j) && (j <? S k)) with false; [now rewrite orb_false_r|].
          symmetry. destruct (Nat.ltb_spec k j), (Nat.ltb_spec j (S k)); auto; lia.
        + intros i s Hi HS. eapply gives_mono; [apply (clear_at_ok n); [lia|lia|apply HL|exact HS]|]. intros s'. apply cleared_ext. intros j Hj.
          rewrite <- orb_assoc. f_equal. destruct (Nat.ltb_spec k j), (Nat.ltb_spec j i), (Nat.ltb_spec j (S i)), (Nat.eqb_spec j i); cbn; auto; lia.
      - intros s HS. exact HS. }
    intros [col' basis'] H2. cbn [gives].
    eapply (sec_step m n (cols M) k col basis pivots pc col' basis' pc' pv' cur _ I0 Hk HL CP GP LP); [|exact H2].
    intros j Hj. cbv beta. rewrite orb_true_iff, andb_true_iff, !Nat.ltb_lt. replace (S k + (n - S k)) with n by lia.
    unfold at_. rewrite existsb_exists. split.
    + intros [(p & Ip & E)|[X _]]; [|auto]. right. exists p. apply IL in Ip as [P1 P2]. split; [auto|]. split; [auto|].
      destruct (PV p P2) as (P3 & i & Ei & _). assert (E2 : get pc' p = Some (Some i)). { rewrite GP. destruct (Nat.eqb_spec p cur); [lia|auto]. }
      rewrite (nth_error_nth _ _ _ E2) in E. apply Nat.eqb_eq in E. now subst i.
    + intros [X|(p & P1 & P2 & Ep)]; [auto|]. left. exists p. split; [apply IL; auto|].
      assert (E2 : get pc' p = Some (Some j)). { rewrite GP. destruct (Nat.eqb_spec p cur); [lia|auto]. }
      rewrite (nth_error_nth _ _ _ E2). apply Nat.eqb_refl.
Qed.

Lemma image_image A B x : image_of A (image_of B x) = lincomb (coord x) (map (image_of A) B).
Proof.
  unfold image_of at 2. generalize (coord x) as c. induction B as [|b B IH]; intros c; cbn [lincomb map].
  - unfold image_of. apply lincomb_0. intros; apply coord_0.
  - rewrite <- IH. unfold image_of. rewrite (lincomb_ext _ (fun i => xorb (coord (if c 0 then b else 0%N) i) (coord (lincomb (fun i => c (S i)) B) i))) by (intros; apply coord_lxor).
    rewrite lincomb_xor. f_equal. destruct (c 0); [auto|]. apply lincomb_0. intros; apply coord_0.
Qed.

(** what the matrix made from the final state does on the image *)
Theorem section_inverse m n A col basis pivots pc (B : list N) : length A = n -> sec_inv m n A n col basis pivots pc ->
  length B = m ->
  (forall p, p < m -> nth p B 0%N = if coord pivots p then match get pc p with Some (Some j) => nth j basis 0%N | _ => 0%N end else 0%N) ->
  forall x, in_span A x -> image_of A (image_of B x) = x.
Proof.
  intros LA I LB HB x SX. rewrite image_image. pose proof I as I0. destruct I as [L1 L2 L3 W WB REL SP PV DN CL].
  apply SP in SX. (* both sides are additive in x, so that columns are enough *)
  revert x SX. apply span_least.
  - apply lincomb_0. intros; apply coord_0.
  - intros v w Ev Ew. rewrite (lincomb_ext _ (fun i => xorb (coord v i) (coord w i))) by (intros; apply coord_lxor). now rewrite lincomb_xor, Ev, Ew.
  - intros x Ix. apply In_nth with (d := 0%N) in Ix as (j & Hj & <-). rewrite L1 in Hj.
    destruct (DN j Hj) as [->|(p & Hp & Ep)]; [apply lincomb_0; intros; apply coord_0|].
    destruct (PV p Hp) as (Hpm & j' & Ej & _ & [LL _]). rewrite Ep in Ej. injection Ej as <-.
    rewrite (lincomb_ext _ (fun i => (i =? p) || (negb (coord pivots i) && coord (nth j col 0%N) i))).
    2: { intros i Hi. destruct (coord pivots i) eqn:C; cbn [negb andb]; [rewrite orb_false_r|].
      - destruct (Nat.eqb_spec i p) as [->|N]; [auto|]. apply CL; auto. intros E. destruct (PV i C) as (_ & k & Ek & _ & L). rewrite E in Ek. injection Ek as <-.
        apply N. apply (leads_unique (nth j col 0%N)); auto. destruct (PV p Hp) as (_ & k' & Ek' & _ & L'). rewrite Ep in Ek'. injection Ek' as <-. auto.
      - destruct (Nat.eqb_spec i p) as [->|N]; [congruence|auto]. }
    apply coord_ext. intros q. rewrite coord_lincomb, map_length, LB, (sum2_single _ p); auto.
    + rewrite Nat.eqb_refl. cbn [orb andb]. rewrite (nth_indep (map (image_of A) B) 0%N (image_of A 0)) by (rewrite map_length; lia). rewrite map_nth, HB, Hp, Ep by auto.
      unfold image_of. now rewrite <- REL.
    + intros i Hi N. apply Nat.eqb_neq in N. rewrite N. cbn [orb]. destruct (coord pivots i) eqn:C; [auto|]. cbn [negb andb].
      rewrite (nth_indep (map (image_of A) B) 0%N (image_of A 0)) by (rewrite map_length; lia). rewrite map_nth, HB, C by auto. unfold image_of at 1.
      rewrite lincomb_0 by (intros; apply coord_0). rewrite coord_0. apply andb_false_r.
Qed.

Theorem bm_section_ok M : rows M <= dim -> ncols M <= dim -> is_matrix (rows M) (ncols M) (cols M) ->
  gives (bm_section dim M) (fun B => rows B = ncols M /\ is_matrix (ncols M) (rows M) (cols B) /\
    forall x, in_span (cols M) x -> image_of (cols M) (image_of (cols B) x) = x) sure.
Proof.
  intros Hm Hn IM. unfold bm_section.
  pose proof (sec_loop M Hm Hn IM) as SL. set (m := rows M) in *. set (n := ncols M) in *.
  destruct (upto n 0 _ (repeat 0%N n)) as [basis0|]; [|destruct SL]. cbn [bind] in SL |- *.
  eapply gives_bind; [exact SL|]. clear SL. intros [[[col basis] pivots] pc] I.
  pose proof (si_pivot _ _ _ _ _ _ _ _ I) as PV.
  assert (WP : within m pivots). { intros i Hi. destruct (coord pivots i) eqn:E; [|auto]. apply PV in E. lia. }
  rewrite (positions_within dim m pivots) by auto.
  assert (FT : forall p, In p (positions_of m pivots) <-> p < m /\ coord pivots p = true) by (intros p; apply (in_positions m)).
  set (val := fun p => match get pc p with Some (Some j) => nth j basis 0%N | _ => 0%N end).
  assert (HV : gives (each (positions_of m pivots) (fun p B =>
    run oj <- vget pc p; run j <- of_option oj; run x <- vget basis j;
    run cs <- vput (cols B) p x; Ok (mk_bm cs (rows B))) (bm_zero n m))
    (fun B => rows B = n /\ length (cols B) = m /\ forall p, p < m -> nth p (cols B) 0%N = if coord pivots p then val p else 0%N) sure).
  { set (f := positions_of m pivots) in *.
    apply (gives_each (fun i B => rows B = n /\ length (cols B) = m /\ forall p, p < m -> nth p (cols B) 0%N = if existsb (Nat.eqb p) (firstn i f) then val p else 0%N)).
    - split; [auto|]. split; [apply repeat_length|]. intros p Hp. cbn. apply nth_repeat.
    - intros i p B Ep (R & L & G). assert (Ip : In p f) by (eapply nth_error_In; exact Ep). apply FT in Ip as [P1 P2].
      destruct (PV p P2) as (_ & j & Ej & Lj & _).
      eapply gives_bind; [apply (gives_vget _ _ (Some j) (fun y => y = Some j)); auto|]. intros ? ->. cbn [of_option bind].
      eapply gives_bind; [apply (gives_vget _ _ (nth j basis 0%N) (fun y => y = nth j basis 0%N)); [apply get_nth; rewrite (si_basis _ _ _ _ _ _ _ _ I); auto|auto]|]. intros ? ->.
      eapply gives_bind; [apply (gives_vput (cols B) p _ (fun w => length w = m /\ forall q, nth q w 0%N = if q =? p then nth j basis 0%N else nth q (cols B) 0%N)); [lia|]|].
      { intros w LW GW. split; [lia|]. now apply nth_put. }
      intros w [LW GW]. cbn [gives rows cols]. split; [auto|]. split; [auto|]. intros q Hq. rewrite GW, (firstn_S _ _ _ Ep), existsb_app. cbn [existsb].
      rewrite orb_false_r. destruct (Nat.eqb_spec q p) as [->|N]; [rewrite orb_true_r; unfold val; now rewrite Ej|]. rewrite orb_false_r. now apply G.
    - intros B (R & L & G). rewrite firstn_all in G. split; [auto|]. split; [auto|]. intros p Hp. rewrite G by auto.
      replace (existsb (Nat.eqb p) f) with (coord pivots p); [auto|]. apply eq_true_iff_eq. rewrite existsb_exists. split.
      + intros C. exists p. rewrite FT, Nat.eqb_eq. auto. + intros (q & Iq & E). apply Nat.eqb_eq in E. subst q. now apply FT in Iq. }
  eapply gives_mono; [exact HV|]. intros B (R & L & G). split; [auto|]. split.
  - split; [auto|]. intros c Ic. apply In_nth with (d := 0%N) in Ic as (p & Hp & <-). rewrite L in Hp. rewrite G by auto.
    destruct (coord pivots p) eqn:C; [|apply within_0]. unfold val. destruct (PV p C) as (_ & j & Ej & Lj & _). rewrite Ej. now apply (si_bwithin _ _ _ _ _ _ _ _ I).
  - apply (section_inverse m n (cols M) col basis pivots pc (cols B)); auto.
Qed.
End Dim.
