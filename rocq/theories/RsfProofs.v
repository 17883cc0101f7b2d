(** Orthogonal roots, conjugation to simple roots, roots made negative, components. *)

From Coq Require Import List Arith ZArith Bool Lia Sorted Permutation Relations.
From Verif Require Import VecModel VecProofs RunModel RunProofs MatModel MatSpec MatRing MatLin MatProofs SizeModel BitsetSpec DynBits DynkinModel LieTypeSpec
  RootModel RootSpec RootMath RootForm RootFin RootBase RootSys RootAcc RootExt RootUniq RootTop RootPerm RsfModel RsfBase DatMath.
Import ListNotations.
Local Open Scope Z_scope.

(** roots joined by a chain of members that are not orthogonal *)
Definition joined (n : nat) (f : nat -> nat -> Z) (s : rootsys) (B : bset) (a b : nat) : Prop :=
  bmem B a = true /\ bmem B b = true /\ value n f (root_at s a) (coroot_at s b) <> 0.

Section Free.
Variables (n : nat) (f : nat -> nat -> Z) (c : matrix Z) (pc : bool) (s : rootsys).
Hypothesis n32 : (n <= 32)%nat.
Hypothesis ft : finite_type n f.
Hypothesis mc : is_mx c n n f.
Hypothesis made : root_system c pc = Ok s.
Notation np := (num_pos s).
Notation rt := (root_at s).
Notation crt := (coroot_at s).
Notation letters := (Forall (fun i => (i < n)%nat)).

Lemma set_lt (B : bset) a : length B = (2 * np)%nat -> bmem B a = true -> (a < 2 * np)%nat.
Proof. intros L M. destruct (le_lt_dec (length B) a) as [Q|Q]; [rewrite bmem_over in M by exact Q; discriminate|lia]. Qed.
Lemma members_lt (B : bset) : length B = (2 * np)%nat -> Forall (fun b => (b < 2 * np)%nat) (members B).
Proof. intros L. apply Forall_forall. intros b I. apply (set_lt B b L). apply members_in. exact I. Qed.
Lemma self_not_zero a : (a < 2 * np)%nat -> value n f (rt a) (crt a) <> 0.
Proof. intros H. rewrite (rc_value n f (proj1 (f_cart n f ft)) _ _ (rt_rc n f c pc s n32 ft mc made a H)). lia. Qed.
Lemma value_zero_sym a b : (a < 2 * np)%nat -> (b < 2 * np)%nat -> value n f (rt a) (crt b) = 0 <-> value n f (rt b) (crt a) = 0.
Proof.
  intros Ha Hb. destruct (top_good n f ft) as [(_ & [d fd] & _) _].
  apply (values_sign n f d (proj1 (f_cart n f ft)) (proj1 fd) (proj1 (proj2 fd)) _ _ _ _ (rt_rc n f c pc s n32 ft mc made a Ha) (rt_rc n f c pc s n32 ft mc made b Hb)).
Qed.

(** ** makeOrthogonal *)
Lemma orthogonal_run o sub : length o = (2 * np)%nat -> length sub = (2 * np)%nat -> exists R, make_orthogonal s o sub = Ok R /\ length R = (2 * np)%nat /\
  forall a, bmem R a = true <-> bmem sub a = true /\ forall b, bmem o b = true -> value n f (rt a) (crt b) = 0.
Proof.
  intros Lo Ls. unfold make_orthogonal. cbv zeta. assert (Ld : length (bdiff sub o) = (2 * np)%nat) by (rewrite diff_length; lia).
  apply gives_none. apply (gives_bset (fun k R => length R = (2 * np)%nat /\ forall a, bmem R a = true <-> bmem (bdiff sub o) a = true /\ ((a < k)%nat -> forall b, bmem o b = true -> value n f (rt a) (crt b) = 0))).
  - split; [exact Ld|]. intros a. split; [intros M; split; [exact M|intros; lia]|intros [M _]; exact M].
  - intros k R Hk Mk [LR A]. destruct (sticks_ok n f c pc s n32 ft mc made k (members o) ltac:(lia) (members_lt o Lo)) as (t & -> & Q). cbn [bind]. destruct t.
    + destruct (bmem_put R k false ltac:(lia)) as (R' & E & L' & M'). unfold brem. rewrite E. cbn [gives]. split; [lia|]. intros a. rewrite M'. destruct (Nat.eqb_spec a k) as [->|N].
      * split; [discriminate|]. intros [_ K]. destruct (proj1 Q eq_refl) as (b & I & V). apply members_in in I. contradiction (V (K ltac:(lia) b I)).
      * rewrite A. split; intros [M K]; (split; [exact M|]); intros Lt; apply K; lia.
    + cbn [gives]. split; [exact LR|]. intros a. rewrite A. split; intros [M K]; (split; [exact M|]); [|intros Lt; apply K; lia]. intros Lt. destruct (Nat.eq_dec a k) as [->|N]; [|apply K; lia].
      intros b Mb. destruct (Z.eq_dec (value n f (rt k) (crt b)) 0) as [V|V]; [exact V|]. exfalso. assert (false = true); [|discriminate]. apply Q. exists b. split; [apply members_in; exact Mb|exact V].
  - intros k R Hk Mk [LR A]. split; [exact LR|]. intros a. rewrite A. split; intros [M K]; (split; [exact M|]); [|intros Lt; apply K; lia]. intros Lt. apply K. destruct (Nat.eq_dec a k) as [->|N]; [congruence|lia].
  - intros R [LR A]. split; [exact LR|]. intros a. rewrite A, bmem_diff by lia. split.
    + intros [M K]. apply andb_prop in M. destruct M as [M1 M2]. split; [exact M1|]. apply K. rewrite Ld. apply (set_lt sub a Ls M1).
    + intros [M K]. split; [|intros _; exact K]. rewrite M. cbn [andb]. destruct (bmem o a) eqn:Mo; [|reflexivity]. exfalso. apply (self_not_zero a (set_lt o a Lo Mo)). apply K. exact Mo.
Qed.

(** ** conjugate_to_simple *)
Lemma descent_run a : (np <= a < 2 * np)%nat -> exists i, find_descent s a = Ok i /\ (i < n)%nat /\ 0 < pairing n f (rt a) i.
Proof.
  intros Ha. destruct (top_descents n f c pc s n32 ft mc made a ltac:(unfold num_roots; lia)) as (d & e & E & _ & D32 & _ & D & _). unfold find_descent. rewrite E. cbn [bind]. exists (nfirst d). split; [reflexivity|].
  assert (X : exists i, (i < n)%nat /\ 0 < pairing n f (rt a) i).
  { pose proof (rt_up n f c pc s n32 ft mc made a Ha) as U. destruct (up_cases n f (proj1 (f_cart n f ft)) _ U) as [(i & Hi & Ei)|(i & u & Hi & _ & _ & _ & P & _)].
    - exists i. split; [exact Hi|]. rewrite Ei, pair_basis by exact Hi. rewrite (proj1 (proj1 (f_cart n f ft)) i Hi). lia.
    - exists i. split; [exact Hi|]. lia. }
  destruct X as (i & Hi & P). destruct (nfirst_ok d i D32 (proj2 (D i) (conj Hi P))) as (M & _ & _). apply D in M. exact M.
Qed.
Lemma conjugate_run a : (a < 2 * np)%nat -> exists i w, conjugate_to_simple s a = Ok (i, w) /\ (i < n)%nat /\ letters w /\ mv s w (np + i) = make_positive s a /\
  (make_positive s a = a \/ make_positive s a = minus_nr np a).
Proof.
  intros Ha. unfold conjugate_to_simple. assert (P : (np <= make_positive s a < 2 * np)%nat /\ (make_positive s a = a \/ make_positive s a = minus_nr np a)).
  { unfold make_positive, is_pos. destruct (Nat.leb_spec np a) as [L|L]; [split; [lia|left; reflexivity]|]. split; [unfold minus_nr in *; lia|right; reflexivity]. }
  destruct P as [P C2]. set (a0 := make_positive s a) in *.
  assert (Q : exists q, loop (num_roots s) (fun '(a, w) => run i <- find_descent s a; Ok (negb (a =? pos_nr np i)%nat)) (fun '(a, w) => run i <- find_descent s a; run b <- simple_reflected s i a; Ok (b, w ++ [i])) (a0, []) = Ok q /\
    let '(b, w) := q in (np <= b < 2 * np)%nat /\ letters w /\ mv s w b = a0 /\ exists i, find_descent s b = Ok i /\ (i < n)%nat /\ b = (np + i)%nat).
  { apply gives_none.
    apply (gives_loop (fun q => let '(b, w) := q in (np <= b < 2 * np)%nat /\ letters w /\ mv s w b = a0) fst
      (fun q => match find_descent s (fst q) with Ok i => negb (fst q =? pos_nr np i)%nat | Fail _ => false end)).
    - split; [exact P|]. split; [constructor|reflexivity].
    - cbn [fst]. unfold num_roots. lia.
    - intros [b w] (Hb & _). cbn [fst]. destruct (descent_run b Hb) as (i & -> & _). reflexivity.
    - intros [b w] (Hb & W & E) T. cbn [fst] in T |- *. destruct (descent_run b Hb) as (i & Ei & Hi & Pi). rewrite Ei in T |- *. apply negb_true_iff, Nat.eqb_neq in T. unfold pos_nr in T. cbn [bind].
      destruct (sgt_ok n f c pc s n32 ft mc made i b Hi ltac:(lia)) as (-> & H1 & E1 & _). destruct (sgt_pos n f c pc s n32 ft mc made i b Hi Hb T) as (H2 & _). cbn [bind gives fst].
      assert (Hd : (sgt s i b < b)%nat).
      { destruct (top_descent n f c pc s n32 ft mc made i b Hi ltac:(unfold num_roots; lia)) as (t & u & Et & _ & Qt & _). unfold is_descent in Et. rewrite (proj1 (sgt_ok n f c pc s n32 ft mc made i b Hi ltac:(lia))) in Et. cbn [bind] in Et. injection Et as Et. apply Qt in Pi. rewrite Pi in Et. apply Nat.ltb_lt in Et. exact Et. }
      split; [lia|]. split; [|lia]. split; [exact H2|]. split; [apply Forall_app; split; [exact W|constructor; [exact Hi|constructor]]|].
      rewrite mv_app. cbn [mv fold_right]. rewrite (sgt_sgt n f c pc s n32 ft mc made i b Hi ltac:(lia)). exact E.
    - intros [b w] (Hb & W & E) T. cbn [fst] in T. split; [exact Hb|]. split; [exact W|]. split; [exact E|]. destruct (descent_run b Hb) as (i & Ei & Hi & _). exists i. rewrite Ei in T. apply negb_false_iff, Nat.eqb_eq in T. split; [exact Ei|]. split; [exact Hi|exact T]. }
  destruct Q as ([b w] & -> & Hb & W & E & i & Ei & Hi & Eb). cbn [bind]. rewrite Ei. cbn [bind]. exists i, w. split; [reflexivity|]. split; [exact Hi|]. split; [exact W|]. split; [rewrite <- Eb; exact E|exact C2].
Qed.

(** ** pos_to_neg *)
Lemma pos_perm_run i : (i < n)%nat -> exists p, pos_perm s i = Ok p /\ length p = np /\ forall j, (j < np)%nat ->
  exists x, get p j = Some x /\ (x < np)%nat /\ (j = i -> x = i) /\ (j <> i -> x <> i /\ sgt s i (np + j) = (np + x)%nat).
Proof.
  intros Hi. unfold pos_perm. cbv zeta. apply gives_none.
  apply (gives_upto0 (fun k p => length p = np /\ forall j, (j < k)%nat -> exists x, get p j = Some x /\ (x < np)%nat /\ (j = i -> x = i) /\ (j <> i -> x <> i /\ sgt s i (np + j) = (np + x)%nat))).
  - split; [apply repeat_length|]. intros j Hj; lia.
  - intros k p Hk [L A].
    assert (Put : forall x, (x < np)%nat -> (k = i -> x = i) -> (k <> i -> x <> i /\ sgt s i (np + k) = (np + x)%nat) -> gives (vput p k x) (fun p' => length p' = np /\ forall j, (j < S k)%nat -> exists x, get p' j = Some x /\ (x < np)%nat /\ (j = i -> x = i) /\ (j <> i -> x <> i /\ sgt s i (np + j) = (np + x)%nat)) none).
    { intros x Hx C1 C2. destruct (vput_ok p k x ltac:(lia)) as (p' & -> & L' & G). cbn [gives]. split; [lia|]. intros j Hj. rewrite G. destruct (Nat.eqb_spec j k) as [Q|N]; [rewrite Q; exists x; auto|]. apply A. lia. }
    destruct (Nat.eqb_spec k i) as [Ek|N].
    + rewrite <- Ek at 1. apply Put; [exact Hk|auto|intros K; contradiction].
    + destruct (sgt_ok n f c pc s n32 ft mc made i (pos_nr np k) Hi ltac:(unfold pos_nr; lia)) as (-> & _). cbn [bind]. unfold pos_nr.
      destruct (sgt_pos n f c pc s n32 ft mc made i (np + k) Hi ltac:(lia) ltac:(lia)) as (H1 & H2). unfold is_pos. destruct (Nat.leb_spec np (sgt s i (np + k))) as [Q|Q]; [|lia].
      apply Put; [lia|intros K; contradiction|]. intros _. split; [lia|]. lia.
  - intros p Q. exact Q.
Qed.
Lemma pos_perms_run k : forall i, (i + k <= n)%nat -> exists l, pos_perms s k i = Ok l /\ forall j, (j < k)%nat -> exists p, get l j = Some p /\ pos_perm s (i + j) = Ok p.
Proof.
  induction k as [|k IH]; intros i H; [exists []; split; [reflexivity|intros; lia]|]. cbn [pos_perms]. destruct (pos_perm_run i ltac:(lia)) as (p & E & _). rewrite E. cbn [bind].
  destruct (IH (S i) ltac:(lia)) as (l & -> & A). cbn [bind]. exists (p :: l). split; [reflexivity|]. intros [|j] Hj; [exists p; split; [reflexivity|rewrite Nat.add_0_r; exact E]|].
  destruct (A j ltac:(lia)) as (q & G & Eq). exists q. split; [exact G|]. replace (i + S j)%nat with (S i + j)%nat by lia. exact Eq.
Qed.
Lemma pos_to_neg_run w : letters w -> exists R, pos_to_neg s w = Ok R /\ length R = (2 * np)%nat /\ forall a, (a < 2 * np)%nat -> (bmem R a = true <-> (np <= a)%nat /\ (mv s w a < np)%nat).
Proof.
  intros W. unfold pos_to_neg. cbv zeta. rewrite (rk n f c pc s n32 ft mc made). destruct (pos_perms_run n 0 ltac:(lia)) as (l & -> & A). cbn [bind].
  assert (Q : exists cur, upto (length w) 0 (fun k cur => run i <- vget w k; run p <- vget l i; run tmp <- each cur (fun r t => run x <- vget p r; bins t x) (repeat false np); bflip tmp i) (repeat false np) = Ok cur /\
    length cur = np /\ forall j, (j < np)%nat -> (bmem cur j = true <-> (mv s w (np + j) < np)%nat)).
  { apply gives_none. apply (gives_upto0 (fun k cur => length cur = np /\ forall j, (j < np)%nat -> (bmem cur j = true <-> (mv s (firstn k w) (np + j) < np)%nat))).
    - split; [apply repeat_length|]. intros j Hj. unfold bmem. rewrite nth_repeat. cbn [firstn mv fold_right]. split; [discriminate|lia].
    - intros k cur Hk [L I]. destruct (get_some w k Hk) as [i Gi]. rewrite (vget_ok _ _ _ Gi). cbn [bind].
      assert (Hi : (i < n)%nat). { rewrite Forall_forall in W. apply W. apply (nth_error_In _ k). exact Gi. }
      destruct (A i Hi) as (p & Gp & Ep). cbn [Nat.add] in Ep. rewrite (vget_ok _ _ _ Gp). cbn [bind]. destruct (pos_perm_run i Hi) as (p' & Ep' & Lp & Pp). assert (p' = p) by congruence. subst p'.
      assert (Wk : letters (firstn k w)). { apply Forall_forall. intros y Iy. rewrite Forall_forall in W. apply W. rewrite <- (firstn_skipn k w). apply in_or_app. left. exact Iy. }
      assert (Fk : firstn (S k) w = firstn k w ++ [i]). { clear - Gi. unfold get in Gi. revert k Gi. induction w as [|y t IH]; intros [|k] G; cbn in *; try discriminate; [congruence|]. rewrite (IH k G). reflexivity. }
      destruct (simple_lt n f c pc s n32 ft mc made i Hi) as (Hp & _ & _).
      apply (gives_bind _ _ (fun t => length t = np /\ forall x, (x < np)%nat -> (bmem t x = true <-> exists r, bmem cur r = true /\ get p r = Some x))).
      { apply (gives_bset (fun m t => length t = np /\ forall x, (x < np)%nat -> (bmem t x = true <-> exists r, (r < m)%nat /\ bmem cur r = true /\ get p r = Some x))).
        - split; [apply repeat_length|]. intros x Hx. unfold bmem at 1. rewrite nth_repeat. split; [discriminate|]. intros (r & Hr & _). lia.
        - intros m t Hm Mm [Lt It]. destruct (Pp m ltac:(lia)) as (x & Gx & Hx & _). rewrite (vget_ok _ _ _ Gx). cbn [bind]. unfold bins. destruct (bmem_put t x true ltac:(lia)) as (t' & -> & L' & M'). cbn [gives]. split; [lia|].
          intros y Hy. rewrite M'. destruct (Nat.eqb_spec y x) as [Q|N].
          + split; [|reflexivity]. intros _. exists m. split; [lia|]. split; [exact Mm|]. rewrite Q. exact Gx.
          + rewrite (It y Hy). split; intros (r & Hr & R1 & R2).
            * exists r. split; [lia|]. split; assumption.
            * exists r. split; [|split; assumption]. destruct (Nat.eq_dec r m) as [->|]; [congruence|lia].
        - intros m t Hm Mm [Lt It]. split; [exact Lt|]. intros y Hy. rewrite (It y Hy). split; intros (r & Hr & R1 & R2).
          + exists r. split; [lia|]. split; assumption.
          + exists r. split; [|split; assumption]. destruct (Nat.eq_dec r m) as [->|]; [congruence|lia].
        - intros t [Lt It]. split; [exact Lt|]. intros x Hx. rewrite (It x Hx). split; intros (r & R0); [exists r; tauto|]. exists r. split; [|exact R0]. destruct R0 as [R0 _]. destruct (le_lt_dec (length cur) r) as [Q|Q]; [rewrite bmem_over in R0 by exact Q; discriminate|exact Q]. }
      intros t [Lt It]. unfold bflip. destruct (bmem_put t i (negb (bmem t i)) ltac:(lia)) as (t' & -> & L' & M'). cbn [gives]. split; [lia|].
      assert (Back : forall j x, (j < np)%nat -> get p j = Some x -> get p x = Some j).
      { intros j x Hj Gx. destruct (Pp j Hj) as (x' & G' & Hx & C1 & C2). assert (x' = x) by congruence. subst x'. destruct (Pp x Hx) as (y & Gy & Hy & D1 & D2). rewrite Gy. f_equal. destruct (Nat.eq_dec j i) as [Q|N]; [rewrite Q; apply D1; apply C1; exact Q|].
        destruct (C2 N) as [N' S1]. destruct (D2 N') as [_ S2]. rewrite <- S1 in S2. rewrite (sgt_sgt n f c pc s n32 ft mc made) in S2 by (try exact Hi; lia). lia. }
      intros j Hj. rewrite M', Fk, mv_app. cbn [mv fold_right]. destruct (Pp j Hj) as (x & Gx & Hx & C1 & C2).
      assert (Tj : bmem t j = true <-> bmem cur x = true).
      { rewrite (It j Hj). split; [|intros M; exists x; split; [exact M|apply Back; assumption]]. intros (r & Mr & Gr). assert (Hr : (r < np)%nat) by (rewrite <- Lp; apply (get_lt _ _ _ Gr)). pose proof (Back r j Hr Gr). congruence. }
      destruct (Nat.eqb_spec j i) as [Q|N].
      + rewrite Q in *. rewrite (sgt_simple n f c pc s n32 ft mc made i Hi). rewrite (C1 eq_refl) in Tj. rewrite (I i Hj) in Tj. rewrite negb_true_iff.
        destruct (minus_ok n f c pc s n32 ft mc made (np + i) ltac:(lia)) as (_ & Em & _). replace (np - 1 - i)%nat with (minus_nr np (np + i)) by (rewrite Em; lia).
        destruct (mv_ok n f c pc s n32 ft mc made (firstn k w) (np + i) Wk ltac:(lia)) as (Hmv & _). rewrite (mv_minus n f c pc s n32 ft mc made) by (try exact Wk; lia).
        destruct (minus_ok n f c pc s n32 ft mc made _ Hmv) as (_ & -> & _). split; intros K.
        * destruct (Nat.lt_ge_cases (mv s (firstn k w) (np + i)) np) as [R|R]; [apply Tj in R; congruence|lia].
        * destruct (bmem t i); [|reflexivity]. exfalso. assert (mv s (firstn k w) (np + i) < np)%nat by (apply Tj; reflexivity). lia.
      + rewrite Tj, (I x Hx). destruct (C2 N) as [_ ->]. reflexivity.
    - intros cur [L I]. rewrite firstn_all in I. split; assumption. }
  destruct Q as (cur & -> & L & I). cbn [bind]. eexists. split; [reflexivity|]. split; [rewrite app_length, repeat_length; lia|].
  intros a Ha. unfold bmem in *. destruct (le_lt_dec np a) as [P|P].
  - rewrite app_nth2 by (rewrite repeat_length; lia). rewrite repeat_length. rewrite (I (a - np)%nat ltac:(lia)). replace (np + (a - np))%nat with a by lia. tauto.
  - rewrite app_nth1 by (rewrite repeat_length; lia). rewrite nth_repeat. split; [discriminate|lia].
Qed.

(** ** components *)
Definition apart (x y : bset) : Prop := forall a, bmem x a = true -> bmem y a = true -> False.
Lemma fop_filter {A} (R : A -> A -> Prop) p l : ForallOrdPairs R l -> ForallOrdPairs R (filter p l).
Proof.
  intros F. induction F as [|x l F1 F2 IH]; [constructor|]. cbn. destruct (p x); [|exact IH]. constructor; [|exact IH]. apply Forall_forall. intros y I. apply filter_In in I. rewrite Forall_forall in F1. apply F1. apply I.
Qed.
Lemma fop_app {A} (R : A -> A -> Prop) l x : ForallOrdPairs R l -> (forall y, In y l -> R y x) -> ForallOrdPairs R (l ++ [x]).
Proof.
  intros F K. induction F as [|y l F1 F2 IH]; cbn; [constructor; constructor|]. constructor; [|apply IH; intros z I; apply K; right; exact I]. apply Forall_app. split; [exact F1|]. constructor; [apply K; left; reflexivity|constructor].
Qed.
Definition stuck (alpha : nat) (x : bset) : bool := match sticks s alpha (members x) with Ok t => t | Fail _ => false end.
Lemma stuck_ok alpha x : (alpha < 2 * np)%nat -> length x = (2 * np)%nat -> sticks s alpha (members x) = Ok (stuck alpha x) /\ (stuck alpha x = true <-> exists b, bmem x b = true /\ value n f (rt alpha) (crt b) <> 0).
Proof.
  intros Ha L. destruct (sticks_ok n f c pc s n32 ft mc made alpha (members x) Ha (members_lt x L)) as (t & E & Q). unfold stuck. rewrite E. split; [reflexivity|]. rewrite Q. split; intros (b & I & V); exists b; (split; [apply members_in; exact I|exact V]).
Qed.
Lemma adhering_run alpha l : (alpha < 2 * np)%nat -> Forall (fun x => length x = (2 * np)%nat) l -> adhering s alpha l = Ok (filter (stuck alpha) l, filter (fun x => negb (stuck alpha x)) l).
Proof.
  intros Ha F. induction F as [|x l L F IH]; [reflexivity|]. cbn [adhering filter]. destruct (stuck_ok alpha x Ha L) as [-> _]. cbn [bind]. rewrite IH. cbn [bind]. destruct (stuck alpha x); reflexivity.
Qed.
Lemma union_all l : forall x, Forall (fun y => length y = length x) l -> length (fold_left bunion l x) = length x /\ forall a, bmem (fold_left bunion l x) a = true <-> bmem x a = true \/ exists y, In y l /\ bmem y a = true.
Proof.
  induction l as [|y l IH]; intros x F; cbn [fold_left]; [split; [reflexivity|]; intros a; split; [intros M; left; exact M|]; intros [M|(y & [] & _)]; exact M|].
  inversion F as [|? ? L F1 Q1]. subst. destruct (IH (bunion x y)) as [Lf A]. { apply Forall_forall. intros z I. rewrite Forall_forall in F1. rewrite union_length by lia. apply F1. exact I. }
  rewrite union_length in Lf by lia. split; [exact Lf|]. intros a. rewrite A, bmem_union by lia. rewrite orb_true_iff. split.
  - intros [[M|M]|(z & I & M)]; [left; exact M|right; exists y; split; [left; reflexivity|exact M]|right; exists z; split; [right; exact I|exact M]].
  - intros [M|(z & [<-|I] & M)]; [left; left; exact M|left; right; exact M|right; exists z; split; assumption].
Qed.
Section Comp.
Variable B : bset.
Hypothesis BL : length B = (2 * np)%nat.
Definition jn (k : nat) (a b : nat) : Prop := (a < k)%nat /\ (b < k)%nat /\ joined n f s B a b.
Record parts (k : nat) (l : list bset) : Prop := {
  pt_len : Forall (fun x => length x = (2 * np)%nat) l;
  pt_sub : forall x a, In x l -> bmem x a = true -> bmem B a = true /\ (a < k)%nat;
  pt_some : forall x, In x l -> exists a, bmem x a = true;
  pt_cover : forall a, (a < k)%nat -> bmem B a = true -> exists x, In x l /\ bmem x a = true;
  pt_conn : forall x a b, In x l -> bmem x a = true -> bmem x b = true -> clos_refl_trans _ (jn k) a b;
  pt_closed : forall x a b, In x l -> bmem x a = true -> jn k a b -> bmem x b = true;
  pt_apart : ForallOrdPairs apart l }.
Lemma joined_sym a b : joined n f s B a b -> joined n f s B b a.
Proof. intros (Ma & Mb & V). split; [exact Mb|]. split; [exact Ma|]. intros Q. apply V. apply value_zero_sym; [apply (set_lt B a BL Ma)|apply (set_lt B b BL Mb)|exact Q]. Qed.
Lemma jn_up k a b : clos_refl_trans _ (jn k) a b -> clos_refl_trans _ (jn (S k)) a b.
Proof. intros R. induction R as [a b (A1 & A2 & J)| |a b d _ IH1 _ IH2]; [apply rt_step; split; [lia|split; [lia|exact J]]|apply rt_refl|eapply rt_trans; eassumption]. Qed.
Lemma parts_skip k l : bmem B k = false -> parts k l -> parts (S k) l.
Proof.
  intros M [P1 P2 P3 P4 P5 P6 P7]. split; [exact P1| |exact P3| | | |exact P7].
  - intros x a I Ma. destruct (P2 x a I Ma). split; [assumption|lia].
  - intros a Ha Ma. apply P4; [|exact Ma]. destruct (Nat.eq_dec a k) as [E|]; [congruence|lia].
  - intros x a b I Ma Mb. apply jn_up. apply (P5 x a b I Ma Mb).
  - intros x a b I Ma (A1 & A2 & J). apply (P6 x a b I Ma). destruct (J) as (J1 & J2 & _). split; [|split; [|exact J]].
    + destruct (Nat.eq_dec a k) as [E|]; [congruence|lia].
    + destruct (Nat.eq_dec b k) as [E|]; [congruence|lia].
Qed.
Lemma parts_step k l x0 : (k < 2 * np)%nat -> bmem B k = true -> parts k l -> length x0 = (2 * np)%nat -> (forall a, bmem x0 a = true <-> a = k) ->
  parts (S k) (filter (fun x => negb (stuck k x)) l ++ [fold_left bunion (filter (stuck k) l) x0]).
Proof.
  intros Hk Mk [P1 P2 P3 P4 P5 P6 P7] L0 M0. pose proof P1 as P1'. rewrite Forall_forall in P1'.
  destruct (union_all (filter (stuck k) l) x0) as [LN MN]. { apply Forall_forall. intros y I. apply filter_In in I. rewrite L0. apply P1'. apply I. }
  set (new := fold_left bunion (filter (stuck k) l) x0) in *.
  assert (MN' : forall a, bmem new a = true <-> a = k \/ exists y, In y l /\ stuck k y = true /\ bmem y a = true).
  { intros a. rewrite MN, M0. split; (intros [E|(y & Y)]; [left; exact E|right; exists y]); [rewrite filter_In in Y; tauto|rewrite filter_In; tauto]. }
  assert (SK : forall y, In y l -> (stuck k y = true <-> exists b, bmem y b = true /\ value n f (rt k) (crt b) <> 0)) by (intros y I; apply stuck_ok; [exact Hk|apply P1'; exact I]).
  assert (In_cases : forall x, In x (filter (fun x => negb (stuck k x)) l ++ [new]) -> (In x l /\ stuck k x = false) \/ x = new).
  { intros x I. apply in_app_or in I. destruct I as [I|[I|[]]]; [left|right; congruence]. apply filter_In in I. destruct I as [I N]. apply negb_true_iff in N. split; assumption. }
  assert (ToK : forall y a, In y l -> stuck k y = true -> bmem y a = true -> clos_refl_trans _ (jn (S k)) a k /\ clos_refl_trans _ (jn (S k)) k a).
  { intros y a I St Ma. apply (SK y I) in St. destruct St as (b & Mb & V). destruct (P2 y b I Mb) as [Bb Lb]. assert (J : joined n f s B k b) by (split; [exact Mk|split; assumption]). split.
    - eapply rt_trans; [apply jn_up; apply (P5 y a b I Ma Mb)|]. apply rt_step. split; [lia|]. split; [lia|]. apply joined_sym. exact J.
    - eapply rt_trans; [|apply jn_up; apply (P5 y b a I Mb Ma)]. apply rt_step. split; [lia|]. split; [lia|]. exact J. }
  split.
  - apply Forall_app. split; [apply Forall_forall; intros x I; apply filter_In in I; apply P1'; apply I|]. constructor; [lia|constructor].
  - intros x a I Ma. apply In_cases in I. destruct I as [[I _]| ->]; [destruct (P2 x a I Ma); split; [assumption|lia]|]. apply MN' in Ma. destruct Ma as [->|(y & Iy & _ & Ma)]; [split; [exact Mk|lia]|]. destruct (P2 y a Iy Ma). split; [assumption|lia].
  - intros x I. apply In_cases in I. destruct I as [[I _]| ->]; [apply P3; exact I|]. exists k. apply MN'. left. reflexivity.
  - intros a Ha Ma. destruct (Nat.eq_dec a k) as [->|N]; [exists new; split; [apply in_or_app; right; left; reflexivity|apply MN'; left; reflexivity]|]. destruct (P4 a ltac:(lia) Ma) as (x & I & Mx). destruct (stuck k x) eqn:St.
    + exists new. split; [apply in_or_app; right; left; reflexivity|]. apply MN'. right. exists x. tauto.
    + exists x. split; [apply in_or_app; left; apply filter_In; rewrite St; split; [exact I|reflexivity]|exact Mx].
  - intros x a b I Ma Mb. apply In_cases in I. destruct I as [[I _]| ->]; [apply jn_up; apply (P5 x a b I Ma Mb)|]. apply MN' in Ma. apply MN' in Mb.
    assert (A1 : clos_refl_trans _ (jn (S k)) a k) by (destruct Ma as [->|(y & Iy & St & My)]; [apply rt_refl|apply (ToK y a Iy St My)]).
    assert (A2 : clos_refl_trans _ (jn (S k)) k b) by (destruct Mb as [->|(y & Iy & St & My)]; [apply rt_refl|apply (ToK y b Iy St My)]). eapply rt_trans; eassumption.
  - intros x a b I Ma (La & Lb & J). apply In_cases in I. destruct (Nat.eq_dec b k) as [Eb|Nb].
    + destruct I as [[I St]| ->]; [|apply MN'; left; exact Eb]. exfalso. assert (stuck k x = true); [|congruence]. apply (SK x I). exists a. split; [exact Ma|]. rewrite Eb in J. apply joined_sym in J. apply J.
    + destruct I as [[I St]| ->].
      * apply (P6 x a b I Ma). split; [apply (P2 x a I Ma)|]. split; [lia|exact J].
      * apply MN' in Ma. apply MN'. right. destruct Ma as [->|(y & Iy & St & My)].
        -- destruct J as (J1 & J2 & V). destruct (P4 b ltac:(lia) J2) as (y & Iy & My). exists y. split; [exact Iy|]. split; [|exact My]. apply (SK y Iy). exists b. split; assumption.
        -- exists y. split; [exact Iy|]. split; [exact St|]. apply (P6 y a b Iy My). split; [apply (P2 y a Iy My)|]. split; [lia|exact J].
  - apply fop_app; [apply fop_filter; exact P7|]. intros y I a My Mn. apply filter_In in I. destruct I as [I N]. apply negb_true_iff in N. apply MN' in Mn. destruct Mn as [->|(z & Iz & St & Mz)].
    + destruct (P2 y k I My). lia.
    + destruct (ForallOrdPairs_In P7 y z I Iz) as [E|[R|R]]; [congruence|exact (R a My Mz)|exact (R a Mz My)].
Qed.
Lemma components_run : exists l, components s B = Ok l /\ parts (2 * np) l.
Proof.
  unfold components. apply gives_none. apply (gives_bset (fun k l => parts k l)).
  - split; try (intros; contradiction); [constructor|intros; lia|constructor].
  - intros k l Hk Mk P. rewrite (adhering_run k l ltac:(lia) (pt_len _ _ P)). cbn [bind]. unfold bins. destruct (bmem_put (repeat false (length B)) k true) as (x0 & -> & L0 & M0); [rewrite repeat_length; exact Hk|]. cbn [bind gives].
    rewrite repeat_length in L0. apply parts_step; [lia|exact Mk|exact P|lia|]. intros a. rewrite M0. destruct (Nat.eqb_spec a k) as [E|N]; [split; [intros _; exact E|reflexivity]|]. unfold bmem. rewrite nth_repeat. split; [discriminate|intros E; contradiction].
  - intros k l Hk Mk P. apply parts_skip; assumption.
  - intros l P. rewrite BL in P. exact P.
Qed.
End Comp.

(** ** is_long_root, is_long_coroot *)
Section Long.
Variable V : nat -> nat -> Z.
Hypothesis V_s : forall i a b, (i < n)%nat -> (a < 2 * np)%nat -> (b < 2 * np)%nat -> V (sgt s i a) (sgt s i b) = V a b.
Hypothesis V_l : forall a b, (a < 2 * np)%nat -> (b < 2 * np)%nat -> V (minus_nr np a) b = - V a b.
Hypothesis V_r : forall a b, (a < 2 * np)%nat -> (b < 2 * np)%nat -> V a (minus_nr np b) = - V a b.
Hypothesis V_2 : forall a, (a < 2 * np)%nat -> V a a = 2.
Definition long (a : nat) : Prop := exists b, (b < 2 * np)%nat /\ b <> a /\ b <> minus_nr np a /\ 1 < V a b.
Lemma long_minus a : (a < 2 * np)%nat -> long a -> long (minus_nr np a).
Proof.
  intros Ha (b & Hb & N1 & N2 & X). exists (minus_nr np b). destruct (minus_ok n f c pc s n32 ft mc made a Ha) as (Ma & Ea & _). destruct (minus_ok n f c pc s n32 ft mc made b Hb) as (Mb & Eb & _).
  split; [exact Mb|]. split; [unfold minus_nr in *; lia|]. split; [unfold minus_nr in *; lia|]. rewrite V_l, V_r by assumption. lia.
Qed.
Lemma long_step i a : (i < n)%nat -> (a < 2 * np)%nat -> long a -> long (sgt s i a).
Proof.
  intros Hi Ha (b & Hb & N1 & N2 & X). exists (sgt s i b). destruct (sgt_ok n f c pc s n32 ft mc made i b Hi Hb) as (_ & Sb & _). split; [exact Sb|].
  assert (Inj : forall x y, (x < 2 * np)%nat -> (y < 2 * np)%nat -> sgt s i x = sgt s i y -> x = y). { intros x y Hx Hy E. rewrite <- (sgt_sgt n f c pc s n32 ft mc made i x Hi Hx), E. apply (sgt_sgt n f c pc s n32 ft mc made i y Hi Hy). }
  destruct (minus_ok n f c pc s n32 ft mc made a Ha) as (Ma & Ea & _).
  split; [intros E; apply N1; apply (Inj b a Hb Ha E)|]. split; [|rewrite V_s by assumption; exact X]. rewrite <- (sgt_minus n f c pc s n32 ft mc made i a Hi Ha). intros E. apply N2. apply (Inj _ _ Hb Ma E).
Qed.
Lemma long_word w a : letters w -> (a < 2 * np)%nat -> long a -> long (mv s w a).
Proof. intros W Ha X. induction W as [|i w Hi W IH]; [exact X|]. cbn [mv fold_right]. apply long_step; [exact Hi|apply mv_ok with (n := n) (f := f) (c := c) (pc := pc); assumption|exact IH]. Qed.
Lemma mv_back w a : letters w -> (a < 2 * np)%nat -> mv s (rev w) (mv s w a) = a.
Proof.
  intros W Ha. induction W as [|i w Hi W IH]; [reflexivity|]. cbn [rev]. rewrite mv_app. change (mv s (i :: w) a) with (sgt s i (mv s w a)). change (mv s [i] (sgt s i (mv s w a))) with (sgt s i (sgt s i (mv s w a))). rewrite (sgt_sgt n f c pc s n32 ft mc made); [exact IH|exact Hi|]. apply mv_ok with (n := n) (f := f) (c := c) (pc := pc); assumption.
Qed.
Lemma below_run k : forall j (br : nat -> res Z) g, (forall x, (j <= x < j + k)%nat -> br x = Ok (g x)) -> exists t, some_below k j br = Ok t /\ (t = true <-> exists x, (j <= x < j + k)%nat /\ g x < -1).
Proof.
  induction k as [|k IH]; intros j br g E; cbn [some_below].
  - exists false. split; [reflexivity|]. split; [discriminate|]. intros (x & Hx & _). lia.
  - rewrite (E j ltac:(lia)). cbn [bind]. destruct (Z.ltb_spec (g j) (-1)) as [Q|Q].
    + exists true. split; [reflexivity|]. split; [intros _; exists j; split; [lia|exact Q]|reflexivity].
    + destruct (IH (S j) br g) as (t & Et & K); [intros x Hx; apply E; lia|]. exists t. split; [exact Et|]. rewrite K. split; intros (x & Hx & G); exists x; (split; [|exact G]); [lia|]. destruct (Nat.eq_dec x j) as [->|]; lia.
Qed.
Lemma long_simple i : (i < n)%nat -> long (np + i) <-> exists j, (0 <= j < 0 + np)%nat /\ V (np - 1 - i) j < -1.
Proof.
  intros Hi. destruct (simple_lt n f c pc s n32 ft mc made i Hi) as (Hp & _ & _). assert (Ha : (np + i < 2 * np)%nat) by lia. destruct (minus_ok n f c pc s n32 ft mc made _ Ha) as (Ma & Ea & _).
  assert (Q : forall j, (j < np)%nat -> V (np - 1 - i) j = V (np + i) (minus_nr np j)). { intros j Hj. replace (np - 1 - i)%nat with (minus_nr np (np + i)) by (rewrite Ea; lia). rewrite V_l, V_r by lia. lia. }
  split.
  - intros (b & Hb & N1 & N2 & X). assert (Y : exists d, (np <= d < 2 * np)%nat /\ V (np + i) d < -1).
    { destruct (le_lt_dec np b) as [Pb|Pb].
      - exists (sgt s i b). destruct (sgt_pos n f c pc s n32 ft mc made i b Hi ltac:(lia) N1) as (H1 & _). split; [exact H1|]. rewrite <- (V_s i (np + i)%nat (sgt s i b) Hi Ha (proj2 H1)), (sgt_sgt n f c pc s n32 ft mc made i b Hi Hb). rewrite (sgt_simple n f c pc s n32 ft mc made i Hi).
        replace (np - 1 - i)%nat with (minus_nr np (np + i)) by (rewrite Ea; lia). rewrite V_l by lia. lia.
      - exists (minus_nr np b). destruct (minus_ok n f c pc s n32 ft mc made b Hb) as (Mb & Eb & _). split; [lia|]. rewrite V_r by lia. lia. }
    destruct Y as (d & Hd & Y). exists (minus_nr np d). destruct (minus_ok n f c pc s n32 ft mc made d ltac:(lia)) as (Md & Ed & _). split; [lia|]. rewrite Q by lia. replace (minus_nr np (minus_nr np d)) with d by (unfold minus_nr in *; lia). exact Y.
  - intros (j & Hj & Y). rewrite Q in Y by lia. destruct (minus_ok n f c pc s n32 ft mc made j ltac:(lia)) as (Mj & Ej & _). exists j. split; [lia|]. split; [lia|]. split.
    + intros E. rewrite E in Y. replace (minus_nr np (minus_nr np (np + i))) with (np + i)%nat in Y by (unfold minus_nr in *; lia). rewrite V_2 in Y by lia. lia.
    + rewrite V_r in Y by lia. lia.
Qed.
Lemma long_run a (br : nat -> nat -> res Z) : (a < 2 * np)%nat -> (forall x y, (x < 2 * np)%nat -> (y < 2 * np)%nat -> br x y = Ok (V x y)) ->
  exists t, (run q <- conjugate_to_simple s a; let neg := (np - 1 - fst q)%nat in some_below np 0 (fun j => br neg j)) = Ok t /\ (t = true <-> long a).
Proof.
  intros Ha E. destruct (conjugate_run a Ha) as (i & w & -> & Hi & W & Em & C2). cbn [bind fst]. cbv zeta. destruct (simple_lt n f c pc s n32 ft mc made i Hi) as (Hp & _ & _).
  destruct (below_run np 0 (fun j => br (np - 1 - i)%nat j) (fun j => V (np - 1 - i) j)) as (t & -> & K); [intros x Hx; apply E; lia|]. exists t. split; [reflexivity|]. rewrite K, <- (long_simple i Hi).
  assert (A1 : long (np + i) <-> long (make_positive s a)). { rewrite <- Em. split; [apply long_word; [exact W|lia]|]. intros X. rewrite <- (mv_back w (np + i) W ltac:(lia)). apply long_word; [apply Forall_rev; exact W| |exact X]. apply mv_ok with (n := n) (f := f) (c := c) (pc := pc); (assumption || lia). }
  rewrite A1. destruct C2 as [-> | ->]; [reflexivity|]. destruct (minus_ok n f c pc s n32 ft mc made a Ha) as (Ma & Ea & _). split; [|apply long_minus; exact Ha]. intros X. apply (long_minus _ Ma) in X. replace (minus_nr np (minus_nr np a)) with a in X by (unfold minus_nr in *; lia). exact X.
Qed.
End Long.
Lemma long_root_run a : (a < 2 * np)%nat -> exists t, is_long_root s a = Ok t /\ (t = true <-> exists b, (b < 2 * np)%nat /\ b <> a /\ b <> minus_nr np a /\ 1 < value n f (rt a) (crt b)).
Proof.
  intros Ha. apply (long_run (fun x y => value n f (rt x) (crt y))) with (br := bracket s); [| | | |exact Ha|].
  - intros i x y Hi Hx Hy. destruct (sgt_ok n f c pc s n32 ft mc made i x Hi Hx) as (_ & _ & -> & _). destruct (sgt_ok n f c pc s n32 ft mc made i y Hi Hy) as (_ & _ & _ & ->). destruct (rt_len n f c pc s n32 ft mc made x Hx), (rt_len n f c pc s n32 ft mc made y Hy). rewrite (value_sr n f i _ _ Hi) by (rewrite ?sr_length; assumption). rewrite (sr_sr n (flip f) (proj2 (f_cart n f ft)) i _ Hi) by assumption. reflexivity.
  - intros x y Hx Hy. destruct (minus_ok n f c pc s n32 ft mc made x Hx) as (_ & _ & -> & _). apply value_opp_l.
  - intros x y Hx Hy. destruct (minus_ok n f c pc s n32 ft mc made y Hy) as (_ & _ & _ & ->). apply value_opp_r.
  - intros x Hx. apply (rc_value n f (proj1 (f_cart n f ft))). apply (rt_rc n f c pc s n32 ft mc made x Hx).
  - intros x y Hx Hy. apply (top_bracket n f c pc s n32 ft mc made); unfold num_roots; lia.
Qed.
Lemma long_coroot_run a : (a < 2 * np)%nat -> exists t, is_long_coroot s a = Ok t /\ (t = true <-> exists b, (b < 2 * np)%nat /\ b <> a /\ b <> minus_nr np a /\ 1 < value n f (rt b) (crt a)).
Proof.
  intros Ha. apply (long_run (fun x y => value n f (rt y) (crt x))) with (br := fun x y => bracket s y x); [| | | |exact Ha|].
  - intros i y x Hi Hy Hx. destruct (sgt_ok n f c pc s n32 ft mc made i x Hi Hx) as (_ & _ & -> & _). destruct (sgt_ok n f c pc s n32 ft mc made i y Hi Hy) as (_ & _ & _ & ->). destruct (rt_len n f c pc s n32 ft mc made x Hx), (rt_len n f c pc s n32 ft mc made y Hy). rewrite (value_sr n f i _ _ Hi) by (rewrite ?sr_length; assumption). rewrite (sr_sr n (flip f) (proj2 (f_cart n f ft)) i _ Hi) by assumption. reflexivity.
  - intros y x Hy Hx. destruct (minus_ok n f c pc s n32 ft mc made y Hy) as (_ & _ & _ & ->). apply value_opp_r.
  - intros y x Hy Hx. destruct (minus_ok n f c pc s n32 ft mc made x Hx) as (_ & _ & -> & _). apply value_opp_l.
  - intros x Hx. apply (rc_value n f (proj1 (f_cart n f ft))). apply (rt_rc n f c pc s n32 ft mc made x Hx).
  - intros x y Hx Hy. apply (top_bracket n f c pc s n32 ft mc made); unfold num_roots; lia.
Qed.
End Free.
