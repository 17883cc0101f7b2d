(** Proofs about integrality_points. *)

From Coq Require Import List Arith ZArith Bool Lia Sorted Znumtheory.
From Verif Require Import VecModel VecProofs RunModel RunProofs MatModel MatSpec MatLin MatRing MatProofs LatModel BitsModel ArithModel ArithSpec ArithProps RatVecModel LieTypeSpec RootModel RootSpec RootMath RootForm RootFin RootBase RootAcc RootUniq RootTop RootProps
  RsfBase DatModel DatSpec DatMath DatProofs DatOps DatFactor DfModel DfMath DfInt.
Import ListNotations.
Local Open Scope Z_scope.
Notation E := (overflows fits64).

(** ** sets as sorted lists *)
Section Set_.
Context {T : Type}.
Variables (lt : T -> T -> res bool) (less : T -> T -> Prop) (ok : T -> Prop).
Hypothesis lt_gives : forall x y, ok x -> ok y -> gives (lt x y) (fun t => t = true <-> less x y) E.
Hypothesis trans : forall x y z, ok x -> ok y -> ok z -> less x y -> less y z -> less x z.
Hypothesis total : forall x y, ok x -> ok y -> ~ less x y -> ~ less y x -> x = y.
Lemma set_insert_ok x l : ok x -> Forall ok l -> StronglySorted less l ->
  gives (set_insert lt x l) (fun l' => StronglySorted less l' /\ Forall ok l' /\ forall y, In y l' <-> y = x \/ In y l) E.
Proof.
  intros Hx. induction l as [|y l IH]; intros F S; cbn [set_insert].
  - apply gives_ok. split; [repeat constructor|]. split; [auto|]. intros y. cbn. intuition.
  - pose proof (Forall_inv F) as Hy. pose proof (Forall_inv_tail F) as Fl. pose proof (StronglySorted_inv S) as [Sl Sy].
    eapply gives_bind; [apply lt_gives; assumption|]. intros [|] Ha.
    + apply gives_ok. assert (Hxy : less x y) by (apply Ha; reflexivity). split; [|split; [constructor; assumption|cbn; intuition]]. constructor; [exact S|]. constructor; [exact Hxy|].
      rewrite Forall_forall in *. intros z Hz. apply (trans x y z); auto. 
    + eapply gives_bind; [apply lt_gives; assumption|]. intros [|] Hb.
      * eapply gives_bind; [apply IH; assumption|]. intros t (St & Ft & It). apply gives_ok. assert (Hyx : less y x) by (apply Hb; reflexivity). split; [|split; [constructor; assumption|]].
        { constructor; [exact St|]. apply Forall_forall. intros z Hz. apply It in Hz. destruct Hz as [->|Hz]; [exact Hyx|]. rewrite Forall_forall in Sy. apply Sy. exact Hz. }
        intros z. cbn. rewrite It. intuition.
      * apply gives_ok. split; [exact S|]. split; [exact F|]. intros z. split; [auto|]. intros [->|H]; [|exact H]. left. symmetry. apply total; try assumption; intros Q; [apply Ha in Q|apply Hb in Q]; discriminate.
Qed.
End Set_.

(** ** fractions *)
Definition frac_less (x y : rational) : Prop := rnum x * rden y < rnum y * rden x.
Definition frac_ok (x : rational) : Prop := lowest x /\ rden x < 2 ^ 63.
Lemma s64_small x : 0 <= x < 2 ^ 63 -> s64 x = x.
Proof. intros H. unfold s64, H63, W64. rewrite Z.mod_small; lia. Qed.
Lemma lt_run x y : frac_ok x -> frac_ok y -> gives (of_neg (rat_lt x y)) (fun t => t = true <-> frac_less x y) E.
Proof.
  intros ((_ & Dx & _) & Bx) ((_ & Dy & _) & By). unfold rat_lt, rat_cmp. rewrite !s64_small by lia. unfold mul_s, chk.
  assert (Bad : E Overflow) by (split; [reflexivity|exists (2 ^ 63); reflexivity]).
  destruct (_ && _); [|exact Bad]. destruct (_ && _); [|exact Bad]. apply gives_ok. rewrite Z.ltb_lt. unfold frac_less. rewrite (Z.mul_comm (rden x)). reflexivity.
Qed.
Lemma frac_trans x y z : frac_ok x -> frac_ok y -> frac_ok z -> frac_less x y -> frac_less y z -> frac_less x z.
Proof.
  intros ((_ & Dx & _) & _) ((_ & Dy & _) & _) ((_ & Dz & _) & _). unfold frac_less. intros H1 H2.
  assert (Q : (rnum x * rden y) * rden z < (rnum y * rden x) * rden z) by (apply Z.mul_lt_mono_pos_r; lia).
  assert (Q' : (rnum y * rden z) * rden x < (rnum z * rden y) * rden x) by (apply Z.mul_lt_mono_pos_r; lia).
  apply (Z.mul_lt_mono_pos_r (rden y)); [lia|]. nia.
Qed.
Lemma lowest_eq x y : lowest x -> lowest y -> rnum x * rden y = rnum y * rden x -> x = y.
Proof.
  intros (_ & Dx & Gx) (_ & Dy & Gy) Q. destruct x as [a b], y as [u w]. cbn [rnum rden] in *.
  assert (D1 : (b | w)). { apply (Gauss b a w). rewrite Q. apply Z.divide_factor_r. apply Zgcd_1_rel_prime. rewrite Z.gcd_comm. exact Gx. }
  assert (D2 : (w | b)). { apply (Gauss w u b). rewrite <- Q. apply Z.divide_factor_r. apply Zgcd_1_rel_prime. rewrite Z.gcd_comm. exact Gy. }
  assert (b = w) by (apply Z.divide_antisym_nonneg; [lia|lia|exact D1|exact D2]). subst w. f_equal. apply (Z.mul_reg_r a u b); [intros Q0; destruct Dx as [Dx _]; rewrite Q0 in Dx; inversion Dx|exact Q].
Qed.
Lemma frac_total x y : frac_ok x -> frac_ok y -> ~ frac_less x y -> ~ frac_less y x -> x = y.
Proof. intros [Lx _] [Ly _]. unfold frac_less. intros H1 H2. apply lowest_eq; [exact Lx|exact Ly|lia]. Qed.
(** the fraction with value [a/b] *)
Definition frac_of (a b : Z) (x : rational) : Prop := lowest x /\ rnum x * b = a * rden x.
Lemma frac_of_unique a b x y : 0 < b -> frac_of a b x -> frac_of a b y -> x = y.
Proof.
  intros Hb [Lx Ex] [Ly Ey]. apply lowest_eq; [exact Lx|exact Ly|]. apply (Z.mul_reg_r _ _ b); [lia|].
  transitivity (a * rden x * rden y); [rewrite <- Ex; ring|]. rewrite <- Z.mul_assoc, (Z.mul_comm (rden x)), Z.mul_assoc, <- Ey. ring.
Qed.
Lemma frac_of_den a b x : 0 < b -> frac_of a b x -> rden x <= b.
Proof.
  intros Hb [(_ & Dx & Gx) Ex]. apply Z.divide_pos_le; [exact Hb|]. apply (Gauss (rden x) (rnum x) b); [rewrite Ex; apply Z.divide_factor_r|]. apply Zgcd_1_rel_prime. rewrite Z.gcd_comm. exact Gx.
Qed.
Lemma fractions_run dn p : 0 < dn -> 0 < p < 2 ^ 63 -> forall fuel j l, 1 <= j <= p / dn + 1 -> p / dn - j + 2 <= Z.of_nat fuel -> Forall frac_ok l -> StronglySorted frac_less l ->
  gives (fractions fuel dn (j * dn) p l) (fun l' => StronglySorted frac_less l' /\ Forall frac_ok l' /\ forall y, In y l' <-> In y l \/ exists i, j <= i /\ i * dn <= p /\ frac_of (i * dn) p y) E.
Proof.
  intros Hd Hp. assert (Qp : 0 <= p / dn) by (apply Z.div_pos; lia). pose proof (Z.div_mod p dn ltac:(lia)) as Dm. pose proof (Z.mod_pos_bound p dn Hd) as Bm.
  induction fuel as [|fuel IH]; intros j l Hj Hf F So; cbn [fractions].
  - exfalso. lia.
  - destruct (Z.leb_spec (j * dn) p) as [Q|Q].
    + assert (Y : yields (rat_make (j * dn) p) (j * dn) p) by (apply C19_normalize; [unfold sint; nia|lia]). destruct Y as (x & Ex & Lx & Vx). rewrite Ex. cbn [of_neg bind].
      assert (Fx : frac_of (j * dn) p x) by (split; assumption). assert (Ox : frac_ok x) by (split; [exact Lx|]; pose proof (frac_of_den _ _ _ (proj1 Hp) Fx); lia).
      eapply gives_bind; [apply (set_insert_ok _ frac_less frac_ok lt_run frac_trans frac_total x l Ox F So)|]. intros l1 (S1 & F1 & I1).
      replace (j * dn + dn) with ((j + 1) * dn) by ring. eapply gives_mono; [apply (IH (j + 1) l1); [assert (j <= p / dn) by (apply Z.div_le_lower_bound; lia); lia|lia|exact F1|exact S1]|]. intros l2 (S2 & F2 & I2). split; [exact S2|]. split; [exact F2|].
      intros y. rewrite I2, I1. split.
      * intros [[->|H]|(i & Hi & Hi2 & Fi)]; [right; exists j; split; [lia|]; split; [exact Q|exact Fx]|left; exact H|right; exists i; split; [lia|]; split; assumption].
      * intros [H|(i & Hi & Hi2 & Fi)]; [left; right; exact H|]. destruct (Z.eq_dec i j) as [->|N]; [left; left; apply (frac_of_unique (j * dn) p); [lia|exact Fi|exact Fx]|right; exists i; split; [lia|]; split; assumption].
    + apply gives_ok. split; [exact So|]. split; [exact F|]. intros y. split; [auto|]. intros [H|(i & Hi & Hi2 & _)]; [exact H|]. exfalso. nia.
Qed.

Section Points.
Variables (r n : nat) (A B : nat -> nat -> Z) (p : predatum) (d : datum).
Notation be := (fcol r B).
Hypothesis K : datum_ok r n A B p d.
Notation s := (d_sys d).
Notation np := (num_pos (d_sys d)).
Notation coemb := (comb r n be).
Variables (v : list Z) (dn : Z).
Hypothesis Lv : length v = r.
Hypothesis dpos : 0 < dn.
Notation val a := (dot r v (coemb (coroot_at s a))).
(** the values of [x] times the weight over [dn] on a coroot is a nonzero integer *)
Definition integral_point (x : rational) : Prop := exists a, (np <= a < num_roots s)%nat /\ val a <> 0 /\ (dn * rden x | rnum x * val a).
Lemma points_run : gives (integrality_points fits64 d v dn) (fun l => StronglySorted frac_less l /\ (forall x, In x l -> lowest x) /\
  forall x, lowest x -> (In x l <-> 0 < rnum x <= rden x /\ integral_point x)) E.
Proof.
  unfold integrality_points. change (d_npos d) with np at 1.
  eapply gives_bind with (P := fun ps => Forall (fun q => 0 < q < 2 ^ 63) ps /\ forall q, In q ps <-> exists i, (i < np)%nat /\ q = Z.abs (val (np + i)%nat) /\ q <> 0).
  - apply (gives_upto0 (fun k ps => StronglySorted Z.lt ps /\ Forall (fun q => 0 < q < 2 ^ 63) ps /\ forall q, In q ps <-> exists i, (i < k)%nat /\ q = Z.abs (val (np + i)%nat) /\ q <> 0)).
    + split; [constructor|]. split; [constructor|]. intros q. split; [intros []|intros (i & Hi & _); lia].
    + intros k ps Hk (So & F & I). eapply gives_split; [apply (pos_dot fits64 r n A B p d K v Lv k Hk)|]. intros c <-.
      unfold chkz. destruct (fits64 (Z.abs (val (np + k)%nat))) eqn:Ft; cbn [bind]; [|split; [reflexivity|eexists; exact Ft]]. unfold fits64, H63 in Ft. apply andb_prop in Ft. destruct Ft as [_ Ft]. apply Z.ltb_lt in Ft.
      destruct (Z.eqb_spec (Z.abs (val (np + k)%nat)) 0) as [Q|Q].
      * apply gives_ok. split; [exact So|]. split; [exact F|]. intros q. rewrite I. split; [intros (i & Hi & X); exists i; split; [lia|exact X]|]. intros (i & Hi & X & Y). destruct (Nat.eq_dec i k) as [->|N]; [congruence|]. exists i. split; [lia|]. split; assumption.
      * eapply gives_mono; [apply (set_insert_ok (fun p q => Ok (p <? q)) Z.lt (fun q => 0 < q < 2 ^ 63))|].
        -- intros x y _ _. apply gives_ok. apply Z.ltb_lt.
        -- intros; lia.
        -- intros; lia.
        -- lia.
        -- exact F.
        -- exact So.
        -- intros l (S1 & F1 & I1). split; [exact S1|]. split; [exact F1|]. intros q. rewrite I1, I. split.
           ++ intros [->|(i & Hi & X)]; [exists k; split; [lia|]; split; [reflexivity|exact Q]|exists i; split; [lia|exact X]].
           ++ intros (i & Hi & X & Y). destruct (Nat.eq_dec i k) as [->|N]; [left; exact X|right; exists i; split; [lia|split; assumption]].
    + intros ps (_ & H). exact H.
  - intros ps (F & I).
    apply (gives_upto0 (fun k l => StronglySorted frac_less l /\ Forall frac_ok l /\ forall x, In x l <-> exists q i, In q (firstn k ps) /\ 1 <= i /\ i * dn <= q /\ frac_of (i * dn) q x)).
    + split; [constructor|]. split; [constructor|]. intros x. split; [intros []|intros (q & i & [] & _)].
    + intros k l Hk (So & Fl & Il). destruct (get_some ps k Hk) as [q Gq]. rewrite (vget_ok _ _ _ Gq). cbn [bind]. assert (Bq : 0 < q < 2 ^ 63) by (rewrite Forall_forall in F; apply F; apply (get_In _ _ _ Gq)).
      replace (fractions _ dn dn q l) with (fractions (S (Z.to_nat (q / dn))) dn (1 * dn) q l) by (rewrite Z.mul_1_l; reflexivity). assert (Qd : 0 <= q / dn) by (apply Z.div_pos; lia).
      eapply gives_mono; [apply (fractions_run dn q dpos Bq); [lia|lia|exact Fl|exact So]|]. intros l' (S' & F' & I'). split; [exact S'|]. split; [exact F'|]. intros x. rewrite I', Il, (firstn_get ps k q Gq). split.
      * intros [(q0 & i & H & X)|(i & X)]; [exists q0, i; split; [apply in_or_app; left; exact H|exact X]|exists q, i; split; [apply in_or_app; right; left; reflexivity|exact X]].
      * intros (q0 & i & H & X). apply in_app_or in H. destruct H as [H|[<-|[]]]; [left; exists q0, i; split; assumption|right; exists i; exact X].
    + intros l (So & Fl & Il). rewrite firstn_all in Il. split; [exact So|]. split; [intros x Hx; rewrite Forall_forall in Fl; apply Fl; exact Hx|]. intros x Lx. rewrite Il.
      pose proof Lx as (_ & Dx & Gx). split.
      * intros (q & i & Hq & Hi & Hiq & _ & Ex). pose proof (proj1 (I q) Hq) as (k & Hk & Eq & Nq). assert (0 < q) by lia.
        assert (0 < rnum x) by nia. split; [split; [assumption|nia]|]. exists (np + k)%nat. split; [unfold num_roots; lia|]. split; [lia|].
        apply Z.divide_abs_r. rewrite Z.abs_mul, <- Eq, (Z.abs_eq (rnum x)) by lia. rewrite Ex. exists i. ring.
      * intros ((Px & Lex) & a & Ha & Na & D). apply Z.divide_abs_r in D. rewrite Z.abs_mul, (Z.abs_eq (rnum x)) in D by lia. destruct D as [i Ei]. set (q := Z.abs (val a)) in *. assert (Pq : 0 < q) by (unfold q; lia).
        exists q, i. split; [apply I; exists (a - np)%nat; unfold num_roots in Ha; split; [lia|]; replace (np + (a - np))%nat with a by lia; split; [reflexivity|lia]|].
        assert (Pi : 0 < i). { assert (0 < i * (dn * rden x)) by nia. nia. } split; [lia|].
        assert (Ei' : rnum x * q = i * dn * rden x) by (rewrite Ei; ring). split; [|split; [exact Lx|exact Ei']]. assert (i * dn * rden x <= q * rden x) by nia. nia.
Qed.
End Points.
