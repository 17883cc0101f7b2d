(** matreduc::Smith_basis. *)

From Coq Require Import List Arith ZArith Znumtheory Lia Bool.
From Verif Require ArithModel ArithProofs.
From Verif Require Import VecModel VecProofs SetModel SetProofs RunModel RunProofs MatModel MatSpec MatProofs MatOps MatOps2 MatArith MatRing MatDiv MatDet RedSpec MatLin RedModel RedGcd RedEchelon RedSolve RedInverse RedDiag RedSystem RedAdapt.
Import ListNotations.
Open Scope nat_scope.

Section Smith.
Variable fits : Z -> bool.
Variable as_int : Z -> Z.
Hypothesis Hint : forall z, as_int z = z.
Hypothesis Hfits : forall z, fits z = true -> (-2147483648 <= z < 2147483648)%Z.
Notation R := (zarith fits).
Notation E := (overflows fits).
Variables (m n r : nat) (f : nat -> nat -> Z).
Hypotheses (Hrm : r <= m) (Hrn : r <= n).

(** the columns of [beta], multiplied by the first r of the [dd], span the image of [f] *)
Definition basis_inv (result : matrix Z) (diagonal : list Z) (dd : nat -> Z) : Prop :=
  exists beta gamma, is_vec diagonal r dd /\ is_mx result m m beta /\ (forall b, b < r -> (0 < dd b)%Z) /\
     unimodular m beta /\ unimodular n gamma /\
     feq m n (fmul n f gamma) (fun a b => if b <? r then (dd b * beta a b)%Z else 0%Z).

Lemma lcm_facts a b : (0 < a < 2147483648)%Z -> (0 < b < 2147483648)%Z ->
  exists l d pa p q a' b', ArithModel.lcm (a mod 2 ^ 64) (b mod 2 ^ 64) = Some (l, d, pa) /\ d = Z.gcd a b /\ l = Z.lcm a b /\
    (0 < d)%Z /\ (0 < l)%Z /\ pa = (p * a)%Z /\ (d - pa = q * b)%Z /\ a = (a' * d)%Z /\ b = (b' * d)%Z /\ l = (a' * b)%Z /\ l = (b' * a)%Z.
Proof.
  intros Ha Hb. rewrite !Z.mod_small by lia.
  assert (G0 : (0 < Z.gcd a b)%Z).
  { pose proof (Z.gcd_nonneg a b). destruct (Z.eq_dec (Z.gcd a b) 0) as [e|]; [apply Z.gcd_eq_0_l in e; lia|lia]. }
  pose proof (ArithProofs.lcm_gcd a b ltac:(lia) ltac:(lia)) as LG.
  destruct (Z.gcd_divide_l a b) as [a' A]. destruct (Z.gcd_divide_r a b) as [b' B].
  assert (L1 : Z.lcm a b = (a' * b)%Z) by (apply (Z.mul_reg_r _ _ (Z.gcd a b)); [lia|]; rewrite LG, A at 1; ring).
  assert (L2 : Z.lcm a b = (b' * a)%Z) by (apply (Z.mul_reg_r _ _ (Z.gcd a b)); [lia|]; rewrite LG; rewrite B at 1; ring).
  assert (0 < a' /\ 0 < b')%Z by nia.
  destruct (ArithProofs.lcm_correct a b) as (pa & EQ & [p P] & [q Q] & _); [lia|lia| |].
  { assert (a' <= a)%Z by nia. rewrite L1. apply Z.le_lt_trans with (a * b)%Z; [nia|]. apply Z.lt_trans with (2147483648 * 2147483648)%Z; [nia|reflexivity]. }
  exists (Z.lcm a b), (Z.gcd a b), pa, p, (- q)%Z, a', b'. split; [exact EQ|]. split; [reflexivity|]. split; [reflexivity|].
  split; [exact G0|]. split; [rewrite L1; nia|]. split; [exact P|]. split; [lia|]. split; [exact A|]. split; [exact B|]. split; assumption.
Qed.

Lemma smith_step result diagonal dd i a b : basis_inv result diagonal dd -> S i < r -> a = dd i -> b = dd (S i) ->
  gives (run a <- chkz fits a; run b <- chkz fits b;
    run t <- of_option (ArithModel.lcm (a mod 2 ^ 64) (b mod 2 ^ 64));
    let '(l, d, pa) := t in
    run l <- chkz fits l; run diagonal <- vput diagonal (S i) l;
    run d' <- chkz fits d; run diagonal <- vput diagonal i d';
    run result <- columnOperation R result (S i) i (-1)%Z;
    run c <- chkz fits (1 - pa / d);
    run result <- columnOperation R result i (S i) c;
    Ok (result, diagonal))
  (fun '(result, diagonal) => basis_inv result diagonal (fun k => if k =? i then Z.gcd (dd i) (dd (S i)) else if k =? S i then Z.lcm (dd i) (dd (S i)) else dd k)) E.
Proof.
  intros (beta & gamma & HD & HR & PD & UB & UG & HF) Hi -> ->.
  pose proof (PD i ltac:(lia)) as Pa. pose proof (PD (S i) ltac:(lia)) as Pb.
  unfold chkz at 1. destruct (fits (dd i)) eqn:Fa; [cbn [bind]|apply gives_fail; eexists; eauto].
  unfold chkz at 1. destruct (fits (dd (S i))) eqn:Fb; [cbn [bind]|apply gives_fail; eexists; eauto].
  apply Hfits in Fa, Fb.
  destruct (lcm_facts (dd i) (dd (S i)) ltac:(lia) ltac:(lia)) as (l & d & pa & p & q & a' & b' & -> & Ed & El & D0 & L0 & Ep & Eq & Ea & Eb & L1 & L2).
  rewrite <- Ed, <- El. cbn [of_option bind].
  apply bind_chk; [auto|].
  eapply gives_bind; [eapply (gives_vput_vec diagonal r dd (S i) l); [exact HD|lia|]; intros w Hw; exact Hw|]. intros w1 Hw1.
  apply bind_chk; [auto|].
  eapply gives_bind; [eapply (gives_vput_vec w1 r _ i d); [exact Hw1|lia|]; intros w Hw; exact Hw|]. intros w2 Hw2.
  eapply gives_bind; [apply (zcolop_ok fits result m m beta (S i) i (-1)%Z HR); lia|]. intros N1 HN1.
  set (beta1 := fun a b => if b =? S i then (beta a (S i) + -1 * beta a i)%Z else beta a b) in *.
  apply bind_chk; [auto|].
  eapply gives_bind; [apply (zcolop_ok fits N1 m m beta1 i (S i) (1 - pa / d)%Z HN1); lia|]. intros N2 HN2. apply gives_ok.
  assert (Q : exists t, pa = (t * d)%Z) by (exists (p * a')%Z; rewrite Ep, Ea; ring). destruct Q as [t Et].
  replace (pa / d)%Z with t in HN2 by (rewrite Et, Z.div_mul by lia; reflexivity).
  set (U := fun x y : nat => match x, y with 0, 0 => p | 0, _ => (- b')%Z | S _, 0 => q | _, _ => a' end).
  eexists. exists (fmul n gamma (embed i 2 U)).
  split. { eapply is_vec_ext; [exact Hw2|]. intros k Hk. unfold upd1. reflexivity. }
  split; [exact HN2|].
  split. { intros k Hk. nb. apply PD. exact Hk. }
  split. { apply unimodular_det. rewrite (@det_colop m beta1 i (S i) (1 - t)%Z) by lia. unfold beta1. rewrite (@det_colop m beta (S i) i (-1)%Z) by lia. apply unimodular_det. exact UB. }
  split. { apply unimodular_mul; [exact UG|]. apply unimodular_det. left. rewrite det_embed' by lia.
    replace (det 2 U) with (p * a' + b' * q)%Z by (unfold U; clear; cbn -[Z.mul Z.add Z.opp]; ring).
    apply (Z.mul_reg_r _ _ d); [lia|]. transitivity (p * (a' * d) + q * (b' * d))%Z; [ring|]. rewrite <- Ea, <- Eb. lia. }
  intros x y Hx Hy. rewrite <- fmul_assoc. rewrite (fmul_ext_row n _ _ _ _ _ (fun k Hk => HF x k Hx Hk)).
  rewrite fmul_embed_r by lia. cbv beta.
  destruct (Nat.eq_dec y i) as [->|n1]; [|destruct (Nat.eq_dec y (S i)) as [->|n2]].
  - destruct (Nat.leb_spec i i), (Nat.ltb_spec i (i + 2)), (Nat.ltb_spec i r); try lia. cbn [andb].
    rewrite Nat.sub_diag, Nat.eqb_refl. unfold zsum, fsum, beta1. rewrite Nat.add_0_r, Nat.add_1_r, Nat.eqb_refl.
    destruct (Nat.ltb_spec i r), (Nat.ltb_spec (S i) r), (Nat.eqb_spec i (S i)); try lia. unfold U.
    replace (0 + dd i * beta x i * p + dd (S i) * beta x (S i) * q)%Z with (pa * beta x i + (d - pa) * beta x (S i))%Z by (rewrite Ep at 1; rewrite Eq; ring).
    rewrite Et. ring.
  - destruct (Nat.leb_spec i (S i)), (Nat.ltb_spec (S i) (i + 2)), (Nat.ltb_spec (S i) r); try lia. cbn [andb].
    replace (S i - i) with 1 by lia. unfold zsum, fsum, beta1. rewrite Nat.add_0_r, Nat.add_1_r, Nat.eqb_refl.
    destruct (Nat.ltb_spec i r), (Nat.ltb_spec (S i) r), (Nat.eqb_spec (S i) i); try lia. unfold U.
    replace (0 + dd i * beta x i * - b' + dd (S i) * beta x (S i) * a')%Z with ((a' * dd (S i)) * beta x (S i) - (b' * dd i) * beta x i)%Z by ring.
    rewrite <- L1, <- L2. ring.
  - unfold beta1. destruct (Nat.leb_spec i y), (Nat.ltb_spec y (i + 2)); try lia; cbn [andb]; nb.
Qed.

(** divisibility *)
Definition chain (dd : nat -> Z) (i : nat) : Prop := (dd i | dd (S i))%Z.
Lemma chain_up dd k : (forall i, i < k -> chain dd i) -> forall j, j <= k -> (dd j | dd k)%Z.
Proof.
  induction k as [|k IH]; intros H j Hj; [replace j with 0 by lia; apply Z.divide_refl|].
  destruct (Nat.eq_dec j (S k)) as [->|]; [apply Z.divide_refl|].
  eapply Z.divide_trans; [apply IH; [intros; apply H; lia|lia]|apply H; lia].
Qed.
Definition head_inv (start stop : nat) (dd : nat -> Z) : Prop :=
  (forall i, i < start -> chain dd i) /\ (forall i, stop <= i -> S i < r -> chain dd i) /\
  (S stop < r -> forall j, j <= stop -> (dd j | dd (S stop))%Z).
Definition pass_inv (start stop : nat) (d0 : nat -> Z) (t : nat) (st : matrix Z * list Z * nat * nat) : Prop :=
  let '(result, diagonal, ns, np) := st in exists dd, basis_inv result diagonal dd /\
    (forall j, j < t -> (dd j | dd t)%Z) /\ (forall j, t < j -> dd j = d0 j) /\
    (S stop < r -> forall j, j <= stop -> (dd j | dd (S stop))%Z) /\
    (np = stop /\ ns = stop /\ (forall i, i < t -> chain dd i) \/
     np < t /\ np < stop /\ ns <= np /\ (forall i, np <= i < t -> chain dd i) /\ (forall j, j <= np -> (dd j | dd (S np))%Z) /\
     (forall i, i < ns -> chain dd i)).

Lemma smith_pass_ok start stop d0 result diagonal : basis_inv result diagonal d0 -> start < stop -> stop < r -> head_inv start stop d0 ->
  gives (Smith_pass fits start stop (result, diagonal, stop, stop))
    (fun '(result, diagonal, ns, np) => exists dd, basis_inv result diagonal dd /\ head_inv ns np dd /\ (ns < np -> np < stop) /\ np < r) E.
Proof.
  intros HB Hs Hr (I1 & I2 & I3). unfold Smith_pass.
  eapply gives_mono; [apply (gives_upto (pass_inv start stop d0))|].
  - exists d0. split; [exact HB|]. split; [intros j Hj; apply (chain_up d0 start I1); lia|]. split; [reflexivity|]. split; [exact I3|].
    left. split; [reflexivity|]. split; [reflexivity|]. exact I1.
  - intros i [[[result1 diagonal1] ns] np] Hi (dd & B & P1 & P2 & P3 & P4).
    assert (HD := B). destruct HD as (beta & gamma & HD & _ & PD & _).
    eapply bind_vget; [exact HD|lia|]. eapply bind_vget; [exact HD|lia|].
    pose proof (PD i ltac:(lia)) as Pa. pose proof (PD (S i) ltac:(lia)) as Pb.
    eapply gives_bind; [apply (gives_crem fits _ _ (fun x => x = Z.rem (dd (S i)) (dd i))); [auto|lia|reflexivity]|]. intros ? ->.
    destruct (Z.eqb_spec (Z.rem (dd (S i)) (dd i)) 0) as [e|e].
    + apply gives_ok. assert (C : chain dd i) by (apply Z.rem_divide; [lia|exact e]).
      exists dd. split; [exact B|]. split.
      { intros j Hj. destruct (Nat.eq_dec j i) as [->|]; [exact C|]. eapply Z.divide_trans; [apply P1; lia|exact C]. }
      split; [intros j Hj; apply P2; lia|]. split; [exact P3|].
      destruct P4 as [(Q1 & Q2 & Q3)|(Q1 & Q2 & Q3 & Q4 & Q5 & Q6)].
      * left. split; [exact Q1|]. split; [exact Q2|]. intros j Hj. destruct (Nat.eq_dec j i) as [->|]; [exact C|apply Q3; lia].
      * right. split; [lia|]. split; [exact Q2|]. split; [exact Q3|]. split; [|split; [exact Q5|exact Q6]].
        intros j Hj. destruct (Nat.eq_dec j i) as [->|]; [exact C|apply Q4; lia].
    + pose proof (smith_step result1 diagonal1 dd i _ _ B ltac:(lia) eq_refl eq_refl) as SS.
      set (d1 := fun k => if k =? i then Z.gcd (dd i) (dd (S i)) else if k =? S i then Z.lcm (dd i) (dd (S i)) else dd k) in SS.
      assert (X : forall (K : matrix Z -> list Z -> res (matrix Z * list Z * nat * nat)) Q,
         (forall result diagonal, basis_inv result diagonal d1 -> gives (K result diagonal) Q E) ->
         gives (run a <- chkz fits (dd i); run b <- chkz fits (dd (S i));
            run t <- of_option (ArithModel.lcm (a mod 2 ^ 64) (b mod 2 ^ 64));
            let '(l, d, pa) := t in
            run l <- chkz fits l; run diagonal <- vput diagonal1 (S i) l;
            run d' <- chkz fits d; run diagonal <- vput diagonal i d';
            run result <- columnOperation R result1 (S i) i (-1)%Z;
            run c <- chkz fits (1 - pa / d);
            run result <- columnOperation R result i (S i) c;
            K result diagonal) Q E).
      { intros K Q HK. revert SS.
        destruct (chkz fits (dd i)) as [a|er]; cbn [bind]; [|intros RS; exact RS].
        destruct (chkz fits (dd (S i))) as [b|er]; cbn [bind]; [|intros RS; exact RS].
        destruct (of_option (ArithModel.lcm (a mod 2 ^ 64) (b mod 2 ^ 64))) as [[[l d] pa]|er]; cbn [bind]; [|intros RS; exact RS].
        destruct (chkz fits l) as [l'|er]; cbn [bind]; [|intros RS; exact RS].
        destruct (vput diagonal1 (S i) l') as [v1|er]; cbn [bind]; [|intros RS; exact RS].
        destruct (chkz fits d) as [d'|er]; cbn [bind]; [|intros RS; exact RS].
        destruct (vput v1 i d') as [v2|er]; cbn [bind]; [|intros RS; exact RS].
        destruct (columnOperation R result1 (S i) i (-1)%Z) as [N1|er]; cbn [bind]; [|intros RS; exact RS].
        destruct (chkz fits (1 - pa / d)) as [c|er]; cbn [bind]; [|intros RS; exact RS].
        destruct (columnOperation R N1 i (S i) c) as [N2|er]; cbn [bind]; [|intros RS; exact RS].
        intros RS. apply HK. exact RS. }
      apply X. clear X SS. intros result2 diagonal2 B2. apply gives_ok.
      assert (Lo : forall k, k < i -> d1 k = dd k) by (intros k Hk; unfold d1; nb).
      assert (Hi2 : forall k, S i < k -> d1 k = dd k) by (intros k Hk; unfold d1; nb).
      assert (Di : d1 i = Z.gcd (dd i) (dd (S i))) by (unfold d1; nb).
      assert (DSi : d1 (S i) = Z.lcm (dd i) (dd (S i))) by (unfold d1; nb).
      assert (P1' : forall j, j < S i -> (d1 j | d1 (S i))%Z).
      { intros j Hj. rewrite DSi. destruct (Nat.eq_dec j i) as [->|].
        - rewrite Di. eapply Z.divide_trans; [apply Z.gcd_divide_l|apply Z.divide_lcm_l].
        - rewrite Lo by lia. eapply Z.divide_trans; [apply P1; lia|apply Z.divide_lcm_l]. }
      exists d1. split; [exact B2|]. split; [exact P1'|].
      split. { intros j Hj. rewrite Hi2 by lia. apply P2. lia. }
      split. { intros Q j Hj. rewrite (Hi2 (S stop)) by lia. specialize (P3 Q). destruct (Nat.eq_dec j i) as [->|]; [rewrite Di; eapply Z.divide_trans; [apply Z.gcd_divide_l|apply P3; lia]|].
        destruct (Nat.eq_dec j (S i)) as [->|]; [rewrite DSi; apply Z.lcm_least; apply P3; lia|].
        replace (d1 j) with (dd j) by (unfold d1; nb). apply P3. exact Hj. }
      right. split; [lia|]. split; [lia|].
      assert (Q4 : forall j, i <= j < S i -> chain d1 j) by (intros j Hj; replace j with i by lia; apply P1'; lia).
      assert (Q5 : forall j, j <= i -> (d1 j | d1 (S i))%Z) by (intros j Hj; apply P1'; lia).
      destruct P4 as [(Q1 & -> & Q3)|(Q1 & Q2 & Q3 & _ & _ & Q6)].
      * rewrite Nat.eqb_refl. split; [lia|]. split; [exact Q4|]. split; [exact Q5|]. intros j Hj. unfold chain. rewrite !Lo by lia. apply Q3. lia.
      * destruct (Nat.eqb_spec ns stop); [lia|]. split; [lia|]. split; [exact Q4|]. split; [exact Q5|]. intros j Hj. unfold chain. rewrite !Lo by lia. apply Q6. lia.
  - replace (start + (stop - start)) with stop by lia. intros [[[result1 diagonal1] ns] np] (dd & B & P1 & P2 & P3 & P4).
    exists dd. split; [exact B|].
    assert (Top : forall i, stop <= i -> S i < r -> chain dd i).
    { intros i Hi Hir. destruct (Nat.eq_dec i stop) as [->|]; [apply P3; lia|]. unfold chain. rewrite !P2 by lia. apply I2; lia. }
    destruct P4 as [(-> & -> & Q3)|(Q1 & Q2 & Q3 & Q4 & Q5 & Q6)].
    + split; [|split; [lia|exact Hr]]. split; [exact Q3|]. split; [exact Top|exact P3].
    + split; [|split; [intros _; exact Q2|lia]]. split; [exact Q6|]. split; [|intros _; exact Q5].
      intros i Hi Hir. destruct (Nat.lt_ge_cases i stop); [apply Q4; lia|apply Top; lia].
Qed.
End Smith.

Lemma Smith_basis_ok fits as_int : (forall z, as_int z = z) -> (forall z, fits z = true -> (-2147483648 <= z < 2147483648)%Z) ->
  forall m n f M, is_mx M m n f ->
  gives (Smith_basis fits as_int M) (fun '(result, diagonal) => exists r dd beta gamma,
     is_vec diagonal r dd /\ is_mx result m m beta /\ r <= m /\ r <= n /\ (forall b, b < r -> (0 < dd b)%Z) /\
     (forall b, S b < r -> (dd b | dd (S b))%Z) /\
     unimodular m beta /\ unimodular n gamma /\
     feq m n (fmul n f gamma) (fun a b => if b <? r then (dd b * beta a b)%Z else 0%Z)) (overflows fits).
Proof.
  intros Hint Hfits m n f M HM. unfold Smith_basis.
  eapply gives_bind; [apply (adapted_basis_ok fits as_int Hint m n f M HM)|].
  intros [result diagonal] (r & dd & beta & gamma & HD & HR & Hrm & Hrn & PD & UB & UG & HF).
  rewrite (proj1 HD).
  eapply gives_bind; [apply (gives_loop (fun '(result, diagonal, start, stop, new_stop) => new_stop = stop /\ (start < stop -> stop < r) /\ exists dd, basis_inv m n r f result diagonal dd /\ head_inv r start stop dd)
     (fun '(_, _, start, stop, _) => if start <? stop then stop else 0) (fun '(_, _, start, stop, _) => start <? stop));
     [| | | |intros s Hs Hc; exact (conj Hs Hc)]|].
  - split; [reflexivity|]. split; [lia|]. exists dd. split; [exists beta, gamma; auto 10|]. split; [intros; lia|]. split; [intros; lia|]. intros; lia.
  - destruct (0 <? r - 1); lia.
  - intros [[[[r1 d1] start] stop] np] _. apply gives_ok. reflexivity.
  - intros [[[[r1 d1] start] stop] np] (-> & Hr & dd1 & B & H) Hc. rewrite Hc. apply Nat.ltb_lt in Hc. split; [lia|].
    eapply gives_bind; [apply (smith_pass_ok fits Hfits m n r f Hrm Hrn start stop dd1 r1 d1 B Hc (Hr Hc) H)|].
    intros [[[r2 d2] ns] np] (dd2 & B2 & H2 & H3 & H4). apply gives_ok. split.
    + split; [reflexivity|]. split; [intros _; exact H4|]. exists dd2. split; [exact B2|exact H2].
    + destruct (Nat.ltb_spec ns np); [apply H3; assumption|lia].
  - intros [[[[r1 d1] start] stop] np] [(_ & _ & dd1 & (beta1 & gamma1 & HD1 & HR1 & PD1 & UB1 & UG1 & HF1) & I1 & I2 & _) Hc].
    apply Nat.ltb_ge in Hc. apply gives_ok. exists r, dd1, beta1, gamma1. split; [exact HD1|]. split; [exact HR1|]. split; [exact Hrm|]. split; [exact Hrn|].
    split; [exact PD1|]. split; [|split; [exact UB1|split; [exact UG1|exact HF1]]].
    intros b Hb. destruct (Nat.lt_ge_cases b start); [apply I1; assumption|apply I2; lia].
Qed.
