(** matreduc::echelon_solve solves a system in echelon form by back substitution, with the
    least positive scale factor. *)

From Coq Require Import List Arith ZArith Znumtheory Lia Bool.
From Verif Require Import VecModel VecProofs SetModel SetProofs RunModel RunProofs MatModel MatSpec MatProofs MatOps MatOps2 MatArith MatRing MatDiv MatDet RedSpec MatLin RedModel RedGcd RedEchelon.
Import ListNotations.
Open Scope nat_scope.

Lemma range_map {A} {E : err -> Prop} n from N v (f : nat -> A) (g : nat -> A -> A) (body : nat -> list A -> res (list A)) :
  is_vec v N f -> from + n <= N ->
  (forall k w h, from <= k < from + n -> is_vec w N h -> gives (body k w) (fun w' => is_vec w' N (upd1 h k (g k (h k)))) E) ->
  gives (upto n from body v) (fun w => is_vec w N (fun k => if (from <=? k) && (k <? from + n) then g k (f k) else f k)) E.
Proof.
  intros Hv HN Hb.
  apply (gives_upto (fun t w => is_vec w N (fun k => if (from <=? k) && (k <? t) then g k (f k) else f k))).
  - eapply is_vec_ext; [exact Hv|]. intros k Hk. nb.
  - intros t w Ht Hw. eapply gives_mono; [apply (Hb t w _ Ht Hw)|]. intros w' Hw'. eapply is_vec_ext; [exact Hw'|].
    intros k Hk. unfold upd1. cbv beta. nb.
Qed.
Lemma fapply_ext n f f' v v' i : (forall j, j < n -> f i j = f' i j) -> (forall j, j < n -> v j = v' j) -> fapply n f v i = fapply n f' v' i.
Proof. intros H H'. apply zsum_ext. intros j Hj. rewrite H, H' by assumption. reflexivity. Qed.
Lemma fapply_upd n f v j x i : j < n -> v j = 0%Z -> fapply n f (upd1 v j x) i = (fapply n f v i + f i j * x)%Z.
Proof.
  intros Hj H0. unfold fapply. rewrite (zsum_ext n _ (fun k => f i k * v k + (if (k =? j)%nat then f i j * x else 0)))%Z.
  - rewrite zsum_add. f_equal. rewrite (zsum_one n j); [rewrite Nat.eqb_refl; reflexivity|exact Hj|]. intros k _ ne. nb.
  - intros k Hk. unfold upd1. destruct (Nat.eqb_spec k j) as [->|ne]; [rewrite H0|]; lia.
Qed.
Lemma fapply_scale n f v c i : fapply n f (fun k => c * v k)%Z i = (c * fapply n f v i)%Z.
Proof. unfold fapply. rewrite <- zsum_mul_l. apply zsum_ext. intros. lia. Qed.

Section Solve.
Variable fits : Z -> bool.
Notation R := (zarith fits).
Variables (m r : nat) (e : nat -> nat -> Z) (p : nat -> nat) (b0 : nat -> Z).
Hypothesis HE : echelon m r e p.
Notation ER := (fun er => er = Thrown /\ unsolvable m r e b0 \/ overflows fits er).

Definition solve_inv (t : nat) (st : list Z * Z * list Z * nat) : Prop :=
  let '(b, f, res, j) := st in
  exists beta rho, is_vec b m beta /\ is_vec res r rho /\ (0 < f)%Z /\ j <= r /\
    (forall l, l < r -> (l < j <-> p l < t)) /\ (forall l, l < j -> rho l = 0%Z) /\
    (forall i, i < m -> (f * b0 i)%Z = ((if (i <? t)%nat then beta i else 0) + fapply r e rho i)%Z) /\
    (forall y k, (forall i, i < m -> fapply r e y i = (k * b0 i)%Z) ->
       exists s, k = (s * f)%Z /\ forall l, j <= l < r -> y l = (s * rho l)%Z).

Lemma left_of_pivot (i j l : nat) : l < r -> p l < i -> i < m -> e i l = 0%Z.
Proof. intros Hl Hp Hi. destruct HE as [H _]. destruct (H l Hl) as (_ & _ & Z). apply Z. lia. Qed.

(** the rest of the equation at row i *)
Lemma rest_eq i j y rho s : (forall l, l < j -> rho l = 0%Z) -> (forall l, S j <= l < r -> y l = (s * rho l)%Z) -> j < r -> rho j = 0%Z ->
  (forall l, l < j -> e i l = 0%Z) -> fapply r e y i = (e i j * y j + s * fapply r e rho i)%Z.
Proof.
  intros H0 Hy Hj Hr He. rewrite <- fapply_scale.
  rewrite <- (Z.add_comm (fapply r e (fun k => s * rho k)%Z i)). rewrite <- (fapply_upd r e (fun k => s * rho k)%Z j (y j) i Hj) by (rewrite Hr; lia).
  apply zsum_ext. intros l Hl. unfold upd1. destruct (Nat.eqb_spec l j) as [->|ne]; [reflexivity|].
  destruct (Nat.lt_ge_cases l j); [rewrite He by assumption; lia|]. rewrite Hy by lia. reflexivity.
Qed.

Lemma solve_step piv M i st : is_mx M m r e -> i < m -> length piv = m -> bs_elems piv = map p (seq 0 r) -> solve_inv (S i) st ->
  gives (let '(b, f, result, j) := st in
    run bi <- vget b i;
    if bs_mem piv i then
      run j <- back1 j;
      run e <- mget M i j;
      run d <- (if (0 <? e)%Z then Ok (Z.gcd bi e) else Fail Range);
      run m <- cdiv fits bi d;
      run s <- (if (d <? e)%Z then
          run q <- cdiv fits e d;
          run b <- upto (S i) 0 (fun k b => run x <- vget b k; run y <- amul R x q; vput b k y) b;
          run result <- upto (length result - S j) (S j) (fun l r => run x <- vget r l; run y <- amul R x q; vput r l y) result;
          Ok (b, (f * q)%Z, result)
        else Ok (b, f, result));
      let '(b, f, result) := s in
      run result <- vput result j m;
      run b <- upto (S i) 0 (fun k b =>
        run x <- vget b k; run e <- mget M k j; run p <- amul R e m; run y <- asub R x p; vput b k y) b;
      Ok (b, f, result, j)
    else if (bi =? 0)%Z then Ok (b, f, result, j) else Fail Thrown) (solve_inv i) ER.
Proof.
  intros HM Hi LP HP. destruct st as [[[b f] res] j]. intros (beta & rho & Hb & Hr & Pf & Hj & HJ & H0 & H1 & H2).
  pose proof HE as [HE1 HE2].
  assert (HO : forall er, overflows fits er -> ER er) by (intros; right; assumption).
  eapply bind_vget; [exact Hb|exact Hi|].
  assert (HMem : bs_mem piv i = true <-> exists l, l < r /\ p l = i).
  { rewrite <- elems_In, HP, in_map_iff. split; [intros (l & El & Hl); apply in_seq in Hl; exists l; split; [lia|exact El]|].
    intros (l & Hl & El). exists l. split; [exact El|apply in_seq; lia]. }
  destruct (bs_mem piv i) eqn:Pi.
  - destruct HMem as [HMem _]. destruct (HMem eq_refl) as (l & Hl & El).
    assert (Ej : j = S l).
    { pose proof (proj2 (HJ l Hl)). assert (l < j) by lia. destruct (Nat.eq_dec j (S l)) as [->|ne]; [reflexivity|].
      pose proof (HE2 l (j - 1) ltac:(lia) ltac:(lia)). pose proof (proj1 (HJ (j - 1) ltac:(lia))). lia. }
    rewrite Ej. cbn [back1 bind]. eapply bind_mget; [exact HM|exact Hi|exact Hl|].
    destruct (HE1 l Hl) as (_ & Pe & Ze). rewrite El in Pe. set (ee := e i l) in *.
    destruct (Z.ltb_spec 0 ee) as [_|]; [|lia]. cbn [bind]. set (bi := beta i). set (d := Z.gcd bi ee).
    assert (Pd : (0 < d)%Z) by (pose proof (Z.gcd_nonneg bi ee); destruct (Z.eq_dec d 0) as [D|]; [apply Z.gcd_eq_0_r in D; lia|unfold d in *; lia]).
    destruct (Z.gcd_divide_l bi ee) as [mm Hmm]. destruct (Z.gcd_divide_r bi ee) as [q Hq]. fold d in Hmm, Hq.
    unfold cdiv at 1. destruct (Z.eqb_spec d 0) as [|_]; [lia|].
    replace (Z.quot bi d) with mm by (rewrite Hmm, Z.quot_mul by lia; reflexivity).
    apply bind_chk; [exact HO|].
    assert (Pq : (0 < q)%Z) by nia.
    assert (Cop : rel_prime mm q).
    { apply Zgcd_1_rel_prime. assert (X : (d * Z.gcd mm q = d * 1)%Z).
      { rewrite <- Z.gcd_mul_mono_l_nonneg by lia. rewrite !(Z.mul_comm d), Z.mul_1_l, <- Hmm, <- Hq. reflexivity. }
      apply Z.mul_cancel_l in X; lia. }
    eapply gives_bind with (P := fun '(b, f', res) => f' = (f * q)%Z /\ is_vec b m (fun k => if k <? S i then (beta k * q)%Z else beta k) /\
        is_vec res r (fun k => rho k * q)%Z).
    { destruct (Z.ltb_spec d ee) as [dl|dl].
      - unfold cdiv. destruct (Z.eqb_spec d 0) as [|_]; [lia|].
        replace (Z.quot ee d) with q by (rewrite Hq, Z.quot_mul by lia; reflexivity). apply bind_chk; [exact HO|].
        eapply gives_bind; [apply (range_map (S i) 0 m b beta (fun _ x => x * q)%Z); [exact Hb|lia|]|].
        { intros k w h Hk Hw. eapply bind_vget; [exact Hw|lia|]. unfold zarith; cbn [amul]. apply bind_chk; [exact HO|].
          eapply gives_vput_vec; [exact Hw|lia|]. auto. }
        intros b1 Hb1. rewrite (proj1 Hr).
        eapply gives_bind; [apply (range_map (r - S l) (S l) r res rho (fun _ x => x * q)%Z); [exact Hr|lia|]|].
        { intros k w h Hk Hw. eapply bind_vget; [exact Hw|lia|]. unfold zarith; cbn [amul]. apply bind_chk; [exact HO|].
          eapply gives_vput_vec; [exact Hw|lia|]. auto. }
        intros res1 Hr1. apply gives_ok. split; [reflexivity|]. split.
        + eapply is_vec_ext; [exact Hb1|]. intros k Hk. cbv beta. nb.
        + eapply is_vec_ext; [exact Hr1|]. intros k Hk. cbv beta. destruct (Nat.lt_ge_cases k j); [rewrite (H0 k) by assumption; nb|nb].
      - assert (d = ee) by (pose proof (Z.divide_pos_le d ee Pe ltac:(exists q; exact Hq)); lia).
        assert (q1 : q = 1%Z) by nia. rewrite q1. apply gives_ok. split; [lia|]. split.
        + eapply is_vec_ext; [exact Hb|]. intros k Hk. nb; lia.
        + eapply is_vec_ext; [exact Hr|]. intros k Hk. cbv beta. lia. }
    intros [[b1 f1] res1] (Ef & Hb1 & Hr1).
    eapply bind_vput; [exact Hr1|exact Hl|]. intros res2 Hr2.
    eapply gives_bind; [apply (range_map (S i) 0 m b1 (fun k => if k <? S i then (beta k * q)%Z else beta k) (fun k x => x - e k l * mm)%Z); [exact Hb1|lia|]|].
    { intros k w h Hk Hw. eapply bind_vget; [exact Hw|lia|]. eapply bind_mget; [exact HM|lia|exact Hl|].
      unfold zarith; cbn [amul asub]. apply bind_chk; [exact HO|]. apply bind_chk; [exact HO|].
      eapply gives_vput_vec; [exact Hw|lia|]. auto. }
    intros b2 Hb2. apply gives_ok.
    assert (R0 : rho l = 0%Z) by (apply H0; lia).
    eexists. exists (upd1 (fun k => rho k * q)%Z l mm). split; [exact Hb2|]. split; [exact Hr2|]. split; [subst f1; nia|].
    split; [lia|].
    split. { intros l' Hl'. specialize (HJ l' Hl'). destruct (Nat.lt_trichotomy l' l) as [a|[a|a]].
      - pose proof (HE2 l' l a Hl). lia.
      - subst l'. lia.
      - pose proof (HE2 l l' a Hl'). lia. }
    split. { intros l' Hl'. unfold upd1. nb. rewrite (H0 l') by lia. lia. }
    split.
    { intros a Ha. rewrite fapply_upd by (auto; rewrite R0; lia).
      rewrite (fapply_ext r e e (fun k => rho k * q)%Z (fun k => q * rho k)%Z a) by (auto; intros; lia). rewrite fapply_scale.
      specialize (H1 a Ha). subst f1. cbv beta.
      replace ((f * q) * b0 a)%Z with (q * (f * b0 a))%Z by ring. rewrite H1.
      destruct (Nat.lt_trichotomy a i) as [c|[c|c]].
      - nb; lia.
      - rewrite c. pose proof (Hmm : beta i = (mm * d)%Z) as Q1. pose proof (Hq : e i l = (q * d)%Z) as Q2. rewrite Q1, Q2. nb; ring.
      - rewrite (left_of_pivot a l l Hl ltac:(lia) Ha). nb; lia. }
    { intros y k Hy. destruct (H2 y k Hy) as (s & Hk & Hs).
      assert (Eq : (ee * y l = s * bi)%Z).
      { pose proof (Hy i Hi) as Hyi. rewrite (rest_eq i l y rho s) in Hyi; [|intros; apply H0; lia|intros; apply Hs; lia|exact Hl|exact R0|].
        2:{ intros l' Hl'. apply (left_of_pivot i l l'); [lia| |exact Hi]. pose proof (HE2 l' l Hl' Hl). lia. }
        pose proof (H1 i Hi) as H1i. assert (LI : (i <? S i) = true) by (apply Nat.ltb_lt; lia). rewrite LI in H1i. fold bi in H1i. fold ee in Hyi. rewrite Hk in Hyi. nia. }
      assert (Eq2 : (q * y l = s * mm)%Z) by (rewrite Hmm, Hq in Eq; nia).
      destruct (Gauss q mm s) as [u Hu]; [exists (y l); lia|apply rel_prime_sym; exact Cop|].
      exists u. split; [rewrite Hk, Hu, Ef; ring|]. intros l' Hl'. unfold upd1. destruct (Nat.eqb_spec l' l) as [->|ne]; [nia|].
      rewrite (Hs l') by lia. rewrite Hu. ring. }
  - assert (Np : forall l, l < r -> p l <> i) by (intros l Hl el; assert (false = true) by (apply HMem; exists l; auto); discriminate).
    destruct (Z.eqb_spec (beta i) 0) as [b0i|bn].
    + apply gives_ok. exists beta, rho. split; [exact Hb|]. split; [exact Hr|]. split; [exact Pf|]. split; [exact Hj|].
      split. { intros l Hl. specialize (HJ l Hl). specialize (Np l Hl). lia. }
      split; [exact H0|]. split; [|exact H2]. intros a Ha. rewrite (H1 a Ha).
      destruct (Nat.eq_dec a i) as [->|ne]; [nb; rewrite b0i; lia|nb].
    + left. split; [reflexivity|]. intros y k Hy. destruct (H2 y k Hy) as (s & Hk & Hs).
      assert (X : (s * beta i = 0)%Z).
      { specialize (H1 i Hi). specialize (Hy i Hi). assert (LI : (i <? S i) = true) by (apply Nat.ltb_lt; lia). rewrite LI in H1.
        assert (Y : fapply r e y i = (s * fapply r e rho i)%Z).
        { rewrite <- fapply_scale. apply zsum_ext. intros l Hl. destruct (Nat.lt_ge_cases l j) as [lj|lj]; [|rewrite Hs by lia; reflexivity].
          rewrite (left_of_pivot i j l Hl); [lia| |exact Hi]. pose proof (proj1 (HJ l Hl) lj). specialize (Np l Hl). lia. }
        rewrite Y, Hk in Hy. nia. }
      apply Z.mul_eq_0 in X. destruct X as [X|X]; [|contradiction]. rewrite Hk, X. reflexivity.
Qed.

Lemma echelon_solve_ok piv M b : is_mx M m r e -> length piv = m -> bs_elems piv = map p (seq 0 r) -> is_vec b m b0 ->
  gives (echelon_solve fits M piv b) (fun '(x, f) => exists xi, is_vec x r xi /\ least_solution m r e b0 xi f) ER.
Proof.
  intros HM LP HP Hb. unfold echelon_solve. rewrite (is_mx_rows _ _ _ _ HM), (is_mx_cols _ _ _ _ HM).
  rewrite size_elems, HP, map_length, seq_length.
  eapply gives_bind; [apply (gives_downto solve_inv); [| |intros s Hs; exact Hs]|].
  - exists b0, (fun _ => 0%Z). split; [exact Hb|]. split; [apply is_vec_repeat|]. split; [lia|]. split; [lia|].
    split. { intros l Hl. destruct HE as [HE1 _]. destruct (HE1 l Hl) as [? _]. lia. }
    split; [reflexivity|]. split.
    + intros i Hi. nb. unfold fapply. rewrite zsum_zero by (intros; lia). lia.
    + intros y k _. exists k. split; [lia|]. intros. lia.
  - intros i st Hi Hst. apply solve_step; assumption.
  - intros [[[b1 f] res] j] (beta & rho & _ & Hr & Pf & Hj & HJ & H0 & H1 & H2). apply gives_ok. exists rho. split; [exact Hr|].
    split; [exact Pf|]. split; [intros i Hi; specialize (H1 i Hi); cbn in H1; lia|].
    intros y k Hy. destruct (H2 y k Hy) as (s & Hk & Hs). exists s. split; [exact Hk|]. intros l Hl. apply Hs.
    specialize (HJ l Hl). lia.
Qed.
End Solve.
