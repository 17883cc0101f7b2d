(** matreduc::has_solution and find_solution: integral linear systems. *)

From Coq Require Import List Arith ZArith Znumtheory Lia Bool.
From Verif Require Import VecModel VecProofs SetModel SetProofs RunModel RunProofs MatModel MatSpec MatProofs MatOps MatOps2 MatArith MatRing MatDiv MatDet RedSpec MatLin RedModel RedGcd RedEchelon RedSolve RedInverse RedDiag.
Import ListNotations.
Open Scope nat_scope.

Lemma fapply_fmul n p f g v i : fapply n f (fapply p g v) i = fapply p (fmul n f g) v i.
Proof. symmetry. exact (fmul_assoc n p f g (fun a _ => v a) i 0). Qed.
Lemma fapply_delta n v i : i < n -> fapply n delta v i = v i.
Proof. intros H. exact (fmul_id_l n (fun a _ => v a) i 0 H). Qed.

(** the solutions of a diagonalised system *)
Lemma diagonal_system m n f rho gamma r dd b : unimodular m rho -> unimodular n gamma -> r <= m -> r <= n ->
  feq m n (fmul n (fmul m rho f) gamma) (fun i j => if (i =? j) && (i <? r) then dd i else 0%Z) ->
  (forall y, solves m n f b y -> exists z, forall i, i < m -> fapply m rho b i = if i <? r then (dd i * z i)%Z else 0%Z) /\
  (forall z, (forall i, i < m -> fapply m rho b i = if i <? r then (dd i * z i)%Z else 0%Z) -> solves m n f b (fapply n gamma z)).
Proof.
  intros (rho' & R1 & R2) (gamma' & G1 & G2) Hm Hn HD.
  assert (X : forall z i, i < m -> fapply n (fmul n (fmul m rho f) gamma) z i = if i <? r then (dd i * z i)%Z else 0%Z).
  { intros z i Hi. rewrite (fapply_ext n _ (fun i j => if (i =? j) && (i <? r) then dd i else 0%Z) z z i) by (try reflexivity; intros; apply HD; assumption).
    unfold fapply. destruct (Nat.ltb_spec i r).
    - rewrite (zsum_one n i) by (try lia; intros k Hk ne; nb). rewrite Nat.eqb_refl. reflexivity.
    - apply zsum_zero. intros k Hk. rewrite andb_false_r. reflexivity. }
  split.
  - intros y Hy. exists (fapply n gamma' y). intros i Hi. rewrite <- X by exact Hi. rewrite <- fapply_fmul.
    rewrite (fapply_ext n _ (fmul m rho f) (fapply n gamma (fapply n gamma' y)) y i).
    + rewrite <- fapply_fmul. apply fapply_ext; [reflexivity|]. intros j Hj. symmetry. apply Hy. exact Hj.
    + reflexivity.
    + intros j Hj. rewrite fapply_fmul. rewrite (fapply_ext n _ delta y y j) by (try reflexivity; intros; apply G1; assumption).
      apply fapply_delta. exact Hj.
  - intros z Hz i Hi.
    assert (Y : forall j, j < m -> fapply m rho (fapply n f (fapply n gamma z)) j = fapply m rho b j).
    { intros j Hj. rewrite Hz by exact Hj. rewrite <- X by exact Hj. rewrite !fapply_fmul. apply fapply_ext; [|reflexivity].
      reflexivity. }
    assert (Q : forall v, fapply m rho' (fapply m rho v) i = v i).
    { intros v. rewrite fapply_fmul. rewrite (fapply_ext m _ delta v v i) by (try reflexivity; intros; apply R2; assumption). apply fapply_delta. exact Hi. }
    rewrite <- (Q (fapply n f (fapply n gamma z))), <- (Q b). apply fapply_ext; [reflexivity|]. exact Y.
Qed.

Section System.
Variable fits : Z -> bool.
Notation R := (zarith fits).
Variables (m n : nat) (f : nat -> nat -> Z) (b0 : nat -> Z).
Notation E := (overflows fits).

Lemma gives_crem x d (Q : Z -> Prop) (E' : err -> Prop) : (forall e, overflows fits e -> E' e) -> d <> 0%Z -> Q (Z.rem x d) -> gives (crem fits x d) Q E'.
Proof. intros H Hd HQ. unfold crem. destruct (Z.eqb_spec d 0); [contradiction|]. apply bind_chk; [exact H|]. exact HQ. Qed.

Lemma has_solution_ok A b : is_mx A m n f -> is_vec b m b0 ->
  gives (has_solution fits A b) (fun ok => ok = true <-> solvable m n f b0) E.
Proof.
  intros HA Hb. unfold has_solution.
  eapply gives_bind; [apply (diagonalise_ok fits m n f A HA)|].
  intros [[diagonal row] col] (r & dd & rho & gamma & HD & HR & HC & UR & DC & _ & Hrm & Hrn & HF & ND & PD).
  assert (UC : unimodular n gamma) by (apply unimodular_det; auto).
  destruct (diagonal_system m n f rho gamma r dd b0 UR UC Hrm Hrn HF) as [S1 S2].
  eapply gives_bind; [apply (zapply_ok fits row m m rho b b0 HR Hb)|]. intros b1 Hb1.
  rewrite (proj1 Hb1).
  apply (gives_downto (fun t ok => ok = true <-> forall i, t <= i < m -> if i <? r then (dd i | fapply m rho b0 i)%Z else fapply m rho b0 i = 0%Z)).
  - split; [intros; lia|reflexivity].
  - intros i ok Hi IH. destruct ok.
    + eapply bind_vget; [exact Hb1|exact Hi|]. rewrite (proj1 HD).
      eapply gives_bind with (P := fun x => x = 0%Z <-> if i <? r then (dd i | fapply m rho b0 i)%Z else fapply m rho b0 i = 0%Z).
      * destruct (Nat.ltb_spec i r) as [ir|ir]; [|apply gives_ok; reflexivity].
        eapply bind_vget; [exact HD|exact ir|]. apply gives_crem; [auto|apply ND; exact ir|]. apply Z.rem_divide. apply ND. exact ir.
      * intros x Hx. apply gives_ok. rewrite Z.eqb_eq, Hx. split.
        -- intros H j Hj. destruct (Nat.eq_dec j i) as [->|]; [exact H|]. apply IH; [reflexivity|lia].
        -- intros H. apply H. lia.
    + apply gives_ok. split; [discriminate|]. intros H. apply IH. intros j Hj. apply H. lia.
  - intros ok Hok. rewrite Hok. split.
    + intros H.
      exists (fapply n gamma (fun i => fapply m rho b0 i / dd i)%Z). apply S2. intros i Hi. specialize (H i ltac:(lia)).
      destruct (Nat.ltb_spec i r) as [ir|ir]; [|exact H]. destruct H as [q Hq]. rewrite Hq. rewrite Z.div_mul by (apply ND; exact ir). lia.
    + intros [y Hy]. destruct (S1 y Hy) as [z Hz]. intros i Hi. rewrite Hz by lia. destruct (i <? r); [|reflexivity]. apply Z.divide_factor_l.
Qed.

Lemma find_solution_ok A b : is_mx A m n f -> is_vec b m b0 ->
  gives (find_solution fits A b) (fun x => exists y, is_vec x n y /\ solves m n f b0 y)
    (fun er => er = Thrown /\ ~ solvable m n f b0 \/ overflows fits er).
Proof.
  intros HA Hb. assert (HO : forall er, overflows fits er -> er = Thrown /\ ~ solvable m n f b0 \/ overflows fits er) by auto.
  unfold find_solution.
  eapply gives_bind; [eapply gives_mono_err; [exact HO|]; apply (diagonalise_ok fits m n f A HA)|].
  intros [[diagonal row] col] (r & dd & rho & gamma & HD & HR & HC & UR & DC & _ & Hrm & Hrn & HF & ND & PD).
  assert (UC : unimodular n gamma) by (apply unimodular_det; auto).
  destruct (diagonal_system m n f rho gamma r dd b0 UR UC Hrm Hrn HF) as [S1 S2].
  eapply gives_bind; [eapply gives_mono_err; [exact HO|]; apply (zapply_ok fits row m m rho b b0 HR Hb)|]. intros b1 Hb1.
  set (rb := fapply m rho b0) in *.
  eapply gives_bind; [apply (gives_upto0 (fun t w => exists z, is_vec w m (fun i => if i <? t then z i else rb i) /\ forall i, i < t -> rb i = (dd i * z i)%Z));
    [| |intros s Hs; exact Hs]|].
  { exists rb. split; [exact Hb1|]. intros; lia. }
  { rewrite (proj1 HD). intros i w Hi (z & Hw & Hz).
    eapply bind_vget; [exact HD|exact Hi|]. eapply bind_vget; [exact Hw|lia|]. cbv beta. rewrite Nat.ltb_irrefl.
    eapply gives_bind; [apply (gives_crem _ _ (fun x => x = Z.rem (rb i) (dd i))); [exact HO|apply ND; exact Hi|reflexivity]|]. intros ? ->.
    destruct (Z.eqb_spec (Z.rem (rb i) (dd i)) 0) as [e|e].
    - unfold cdiv. destruct (Z.eqb_spec (dd i) 0) as [e0|_]; [destruct (ND i Hi e0)|].
      apply bind_chk; [exact HO|]. eapply gives_vput_vec; [exact Hw|lia|]. intros w' Hw'.
      exists (upd1 z i (Z.quot (rb i) (dd i))). split.
      + eapply is_vec_ext; [exact Hw'|]. intros j Hj. unfold upd1. nb.
      + intros j Hj. unfold upd1. destruct (Nat.eqb_spec j i) as [->|ne]; [|apply Hz; lia].
        pose proof (Z.quot_rem' (rb i) (dd i)). lia.
    - left. split; [reflexivity|]. intros [y Hy]. destruct (S1 y Hy) as [z' Hz']. apply e.
      rewrite Hz' by lia. destruct (Nat.ltb_spec i r); [|lia]. rewrite Z.mul_comm. apply Z.rem_mul. apply ND. exact Hi. }
  rewrite (proj1 HD). intros w (z & Hw & Hz). rewrite (proj1 Hw).
  eapply gives_bind; [apply (gives_upto (fun t (u : unit) => forall i, r <= i < t -> rb i = 0%Z))|].
  { intros; lia. }
  { intros i u Hi IH. eapply bind_vget; [exact Hw|lia|]. cbv beta. destruct (Nat.ltb_spec i r); [lia|].
    destruct (Z.eqb_spec (rb i) 0) as [e|e].
    - apply gives_ok. intros j Hj. destruct (Nat.eq_dec j i) as [->|]; [exact e|apply IH; lia].
    - left. split; [reflexivity|]. intros [y Hy]. destruct (S1 y Hy) as [z' Hz']. apply e. rewrite Hz' by lia. nb. }
  intros u Hu. replace (r + (m - r)) with m in Hu by lia.
  rewrite (is_mx_rows _ _ _ _ HC).
  eapply gives_mono; [eapply gives_mono_err; [exact HO|]; apply (zapply_ok fits col n n gamma _ _ HC (resize_ok _ _ _ n 0%Z Hw))|].
  intros x Hx. eexists. split; [exact Hx|]. apply S2. intros i Hi. fold rb. destruct (Nat.ltb_spec i r) as [ir|ir].
  - destruct (Nat.ltb_spec i m); [|lia]. destruct (Nat.ltb_spec i r); [|lia]. apply Hz. exact ir.
  - apply Hu. lia.
Qed.
End System.
