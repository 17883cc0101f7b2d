(** Division of integer vectors and matrices by a number. *)

From Coq Require Import List Arith ZArith Lia Bool.
From Verif Require Import VecModel VecProofs PermProofs RunModel RunProofs MatModel MatSpec MatProofs MatArith.
Import ListNotations.
Open Scope Z_scope.

(** [op] gives [fn a] on entries with [P], fails otherwise *)
Lemma vmap_part {A} {E : err -> Prop} (op : A -> res A) (P : A -> A -> Prop) v n x :
  (forall i, (i < n)%nat -> gives (op (x i)) (P (x i)) E) -> is_vec v n x ->
  gives (vmap op v) (fun w => exists y, is_vec w n y /\ forall i, (i < n)%nat -> P (x i) (y i)) E.
Proof.
  revert n x. induction v as [|a v IH]; intros n x Hop [L G]; cbn in L; subst n.
  - cbn. exists x. split; [split; [reflexivity|]|]; intros; lia.
  - cbn [vmap]. assert (x0 : a = x O) by (specialize (G O ltac:(cbn; lia)); cbn in G; congruence).
    rewrite x0. eapply gives_bind; [apply Hop; cbn; lia|]. intros c Hc.
    eapply gives_bind; [apply (IH (length v) (fun i => x (S i)))|].
    + intros i Hi. apply Hop. cbn. lia.
    + split; [reflexivity|]. intros i Hi. exact (G (S i) ltac:(cbn; lia)).
    + intros r (y & [Lr Gr] & Hy). apply gives_ok. exists (fun i => match i with O => c | S j => y j end).
      split; [split; [cbn; lia|]|].
      * intros [|i] Hi; [reflexivity|]. exact (Gr i ltac:(cbn in Hi; lia)).
      * intros [|i] Hi; [exact Hc|]. apply Hy. cbn in Hi. lia.
Qed.

Section Div.
Variable fits : Z -> bool.

Lemma bind_chk {B} z (k : Z -> res B) (Q : B -> Prop) (E : err -> Prop) :
  (forall e, overflows fits e -> E e) -> gives (k z) Q E -> gives (bind (chkz fits z) k) Q E.
Proof.
  intros HE H. unfold chkz. destruct (fits z) eqn:e; [exact H|]. apply HE. split; [reflexivity|]. exists z. exact e.
Qed.
Lemma gives_chk z (Q : Z -> Prop) (E : err -> Prop) : (forall e, overflows fits e -> E e) -> Q z -> gives (chkz fits z) Q E.
Proof. intros HE H. unfold chkz. destruct (fits z) eqn:e; [exact H|]. apply HE. split; [reflexivity|]. exists z. exact e. Qed.

Lemma vec_div_ok v n x c : is_vec v n x ->
  gives (vec_div fits v c) (fun w => c <> 0 /\ exists y, is_vec w n y /\ forall i, (i < n)%nat -> x i = c * y i)
   (fun e => e = Thrown /\ (c = 0 \/ exists i, (i < n)%nat /\ ~ (c | x i)) \/ overflows fits e).
Proof.
  intros Hv. unfold vec_div. destruct (Z.eqb_spec c 0) as [->|nz]; [left; split; [reflexivity|left; reflexivity]|].
  eapply gives_mono; [apply (vmap_part _ (fun a b => a = c * b) v n x); [|exact Hv]|].
  - intros i Hi. unfold crem, cdiv. destruct (Z.eqb_spec c 0); [lia|].
    eapply gives_bind with (P := fun r => r = Z.rem (x i) c).
    { apply bind_chk; [intros; right; assumption|]. reflexivity. }
    intros r ->. destruct (Z.eqb_spec (Z.rem (x i) c) 0) as [e|ne].
    + apply gives_chk; [intros; right; assumption|]. pose proof (Z.quot_rem' (x i) c). lia.
    + left. split; [reflexivity|]. right. exists i. split; [exact Hi|]. intros D. apply ne. apply Z.rem_divide; assumption.
  - intros w (y & Hy & H). split; [exact nz|]. eauto.
Qed.
Lemma vec_divide_ok v n x c : is_vec v n x ->
  gives (vec_divide fits v c) (fun w => c <> 0 /\ exists y, is_vec w n y /\ forall i, (i < n)%nat -> 0 <= x i - c * y i < Z.abs c)
   (fun e => e = Thrown /\ c = 0 \/ overflows fits e).
Proof.
  intros Hv. unfold vec_divide. destruct (Z.eqb_spec c 0) as [->|nz]; [left; split; reflexivity|].
  assert (S : forall d, 0 < d -> forall a, 0 <= a - d * (a / d) < d).
  { intros d Hd a. pose proof (Z.div_mod a d ltac:(lia)). pose proof (Z.mod_pos_bound a d Hd). lia. }
  destruct (Z.ltb_spec 0 c) as [pc|pc].
  - eapply gives_mono; [apply (vmap_part _ (fun a b => 0 <= a - c * b < c) v n x); [|exact Hv]|].
    + intros i Hi. unfold adivide. destruct (Z.ltb_spec 0 c); [|lia]. apply gives_ok. apply S; assumption.
    + intros w (y & Hy & H). split; [exact nz|]. exists y. split; [exact Hy|]. rewrite Z.abs_eq by lia. exact H.
  - apply bind_chk; [intros; right; assumption|].
    eapply gives_mono; [apply (vmap_part _ (fun a b => 0 <= a - c * b < - c) v n x); [|exact Hv]|].
    + intros i Hi. unfold adivide. destruct (Z.ltb_spec 0 (- c)); [|lia]. cbn [bind].
      apply gives_chk; [intros; right; assumption|]. specialize (S (- c) ltac:(lia) (x i)). lia.
    + intros w (y & Hy & H). split; [exact nz|]. exists y. split; [exact Hy|]. rewrite Z.abs_neq by lia. exact H.
Qed.
Lemma vec_mod_ok v n x c : is_vec v n x ->
  gives (vec_mod fits v c) (fun w => c <> 0 /\ exists y, is_vec w n y /\ forall i, (i < n)%nat -> 0 <= y i < Z.abs c /\ (c | x i - y i))
   (fun e => e = Thrown /\ c = 0 \/ overflows fits e).
Proof.
  intros Hv. unfold vec_mod. destruct (Z.eqb_spec c 0) as [->|nz]; [left; split; reflexivity|].
  apply bind_chk; [intros; right; assumption|].
  eapply gives_mono; [apply (vmap_part _ (fun a b => 0 <= b < Z.abs c /\ (c | a - b)) v n x); [|exact Hv]|].
  - intros i Hi. unfold aremainder. destruct (Z.ltb_spec 0 (Z.abs c)); [|lia]. apply gives_ok.
    split; [apply Z.mod_pos_bound; lia|]. apply Z.divide_abs_l. pose proof (Z.div_mod (x i) (Z.abs c) ltac:(lia)).
    exists (x i / Z.abs c). lia.
  - intros w (y & Hy & H'). split; [exact nz|]. exists y. auto.
Qed.
Lemma mat_div_ok M m n f c : is_mx M m n f ->
  gives (mat_div fits M c) (fun N => c <> 0 /\ exists g, is_mx N m n g /\ feq m n f (fun i j => c * g i j))
   (fun e => e = Thrown /\ (c = 0 \/ exists i j, (i < m)%nat /\ (j < n)%nat /\ ~ (c | f i j)) \/ overflows fits e).
Proof.
  intros HM. unfold mat_div. destruct (Z.eqb_spec c 1) as [->|n1].
  - split; [lia|]. exists f. split; [exact HM|]. intros i j _ _. lia.
  - pose proof HM as H'. apply is_mx_data in H'. destruct H' as (Hr & Hc & Hv).
    eapply gives_bind.
    + eapply gives_mono_err; [|apply (vec_div_ok _ _ _ c Hv)].
      intros e [[-> [Z|(i & Hi & D)]]|O]; [left; auto|left; split; [reflexivity|]|right; exact O].
      right. destruct (div_split i m n Hi) as (U1 & U2 & _). exists (i / n)%nat, (i mod n)%nat. auto.
    + intros d (nz & y & Hy & H). apply gives_ok. split; [exact nz|]. exists (fun i j => y (i * n + j)%nat). split.
      * split; [exact Hr|]. split; [exact Hc|]. split; [exact (proj1 Hy)|]. intros i j Hi Hj.
        apply (is_vec_get _ _ _ _ Hy). apply mul_lt; assumption.
      * intros i j Hi Hj. destruct (index_div m n i j Hi Hj) as [E1 E2].
        rewrite <- H by (apply mul_lt; assumption). rewrite E1, E2. reflexivity.
Qed.
Lemma divisible_ok M m n f c : c <> 0 -> is_mx M m n f ->
  gives (divisible fits M c) (fun b => b = true <-> forall i j, (i < m)%nat -> (j < n)%nat -> (c | f i j)) (overflows fits).
Proof.
  intros nz HM. apply is_mx_data in HM. destruct HM as (_ & _ & Hv). unfold divisible.
  set (go := fix go l := match l with [] => Ok true | a :: t => run r <- crem fits a c; if r =? 0 then go t else Ok false end).
  assert (G : forall l, gives (go l) (fun b => b = true <-> forall a, In a l -> (c | a)) (overflows fits)).
  { induction l as [|a l IH]; cbn [go].
    - apply gives_ok. split; [intros _ a []|reflexivity].
    - unfold crem at 1. destruct (Z.eqb_spec c 0); [lia|].
      eapply gives_bind with (P := fun r => r = Z.rem a c); [apply bind_chk; auto; reflexivity|].
      intros r ->. destruct (Z.eqb_spec (Z.rem a c) 0) as [e|ne].
      + eapply gives_mono; [exact IH|]. intros b ->. apply Z.rem_divide in e; [|exact nz]. split.
        * intros H y [<-|Hy]; auto.
        * intros H y Hy. apply H. right. exact Hy.
      + apply gives_ok. split; [discriminate|]. intros H. exfalso. apply ne. apply Z.rem_divide; [exact nz|]. apply H. left. reflexivity. }
  eapply gives_mono; [apply G|]. intros b ->. split.
  - intros H i j Hi Hj. apply H. destruct (index_div m n i j Hi Hj) as [E1 E2].
    pose proof (is_vec_get _ _ _ _ Hv (mul_lt i j m n Hi Hj)) as G'. cbv beta in G'. rewrite E1, E2 in G'. eapply get_In. exact G'.
  - intros H a Ha. destruct (In_get _ _ Ha) as [p Gp]. pose proof (get_lt _ _ _ Gp) as Lp. rewrite (proj1 Hv) in Lp.
    rewrite (is_vec_get _ _ _ _ Hv) in Gp by exact Lp. injection Gp as <-. destruct (div_split p m n Lp) as (U1 & U2 & _). auto.
Qed.
End Div.
