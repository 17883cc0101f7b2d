(** Rules for computations that may end abnormally. *)

From Coq Require Import List Arith Lia Bool.
From Verif Require Import VecModel VecProofs RunModel.
Import ListNotations.

Section Rules.
Context {E : err -> Prop}.

Lemma gives_ok {A} (a : A) (P : A -> Prop) : P a -> gives (Ok a) P E.
Proof. exact (fun H => H). Qed.
Lemma gives_fail {A} e (P : A -> Prop) : E e -> gives (Fail e) P E.
Proof. exact (fun H => H). Qed.
Lemma gives_bind {A B} (m : res A) (k : A -> res B) (P : A -> Prop) (Q : B -> Prop) :
  gives m P E -> (forall a, P a -> gives (k a) Q E) -> gives (bind m k) Q E.
Proof. destruct m as [a|e]; cbn; auto. Qed.
Lemma gives_mono {A} (m : res A) (P Q : A -> Prop) :
  gives m P E -> (forall a, P a -> Q a) -> gives m Q E.
Proof. destruct m as [a|e]; cbn; auto. Qed.
Lemma gives_if {A} (b : bool) (m n : res A) (P : A -> Prop) :
  (b = true -> gives m P E) -> (b = false -> gives n P E) -> gives (if b then m else n) P E.
Proof. destruct b; auto. Qed.

Lemma gives_vget {A} (v : list A) i x (P : A -> Prop) :
  get v i = Some x -> P x -> gives (vget v i) P E.
Proof. intros H HP. unfold vget. rewrite H. exact HP. Qed.
Lemma gives_vput {A} (v : list A) i x (P : list A -> Prop) :
  i < length v ->
  (forall w, length w = length v -> (forall j, get w j = if j =? i then Some x else get v j) -> P w) ->
  gives (vput v i x) P E.
Proof.
  intros H HP. destruct (put_spec v i x H) as (w & Ew & L & G). unfold vput. rewrite Ew. exact (HP w L G).
Qed.
Lemma gives_option {A} (o : option A) x (P : A -> Prop) : o = Some x -> P x -> gives (of_option o) P E.
Proof. intros -> H. exact H. Qed.

Lemma gives_upto {S} (I : nat -> S -> Prop) n from (body : nat -> S -> res S) s :
  I from s ->
  (forall i s, from <= i < from + n -> I i s -> gives (body i s) (I (Datatypes.S i)) E) ->
  gives (upto n from body s) (I (from + n)) E.
Proof.
  revert from s. induction n as [|n IH]; intros from s H0 Hs; cbn [upto].
  - rewrite Nat.add_0_r. exact H0.
  - eapply gives_bind; [apply Hs; [lia|exact H0]|]. intros s' H'.
    rewrite Nat.add_succ_r, <- Nat.add_succ_l. apply IH; [exact H'|]. intros i t Hi. apply Hs. lia.
Qed.
Lemma gives_upto0 {S} (I : nat -> S -> Prop) n (body : nat -> S -> res S) s (Q : S -> Prop) :
  I 0 s ->
  (forall i s, i < n -> I i s -> gives (body i s) (I (Datatypes.S i)) E) ->
  (forall s, I n s -> Q s) ->
  gives (upto n 0 body s) Q E.
Proof.
  intros H0 Hs HQ. eapply gives_mono; [apply (gives_upto I n 0); [exact H0|]|exact HQ].
  intros i t Hi. apply Hs. lia.
Qed.
Lemma gives_downto {S} (I : nat -> S -> Prop) n (body : nat -> S -> res S) s (Q : S -> Prop) :
  I n s ->
  (forall i s, i < n -> I (Datatypes.S i) s -> gives (body i s) (I i) E) ->
  (forall s, I 0 s -> Q s) ->
  gives (downto n body s) Q E.
Proof.
  revert s. induction n as [|n IH]; intros s H0 Hs HQ; cbn [downto]; [exact (HQ s H0)|].
  eapply gives_bind; [apply Hs; [lia|exact H0]|]. intros s' H'. apply IH; [exact H'| |exact HQ].
  intros i t Hi. apply Hs. lia.
Qed.
Lemma gives_loop {S} (I : S -> Prop) (measure : S -> nat) (c : S -> bool) fuel cond (body : S -> res S) s
    (Q : S -> Prop) :
  I s -> measure s <= fuel ->
  (forall s, I s -> gives (cond s) (fun b => b = c s) E) ->
  (forall s, I s -> c s = true -> 0 < measure s /\
     gives (body s) (fun s' => I s' /\ measure s' < measure s) E) ->
  (forall s, I s -> c s = false -> Q s) ->
  gives (loop fuel cond body s) Q E.
Proof.
  revert s. induction fuel as [|k IH]; intros s H0 Hm Hc Hb HQ; cbn [loop];
  (eapply gives_bind; [apply Hc; exact H0|]; intros b ->; destruct (c s) eqn:Cs; [|exact (HQ s H0 Cs)]);
  destruct (Hb s H0 Cs) as [Hp HB].
  - lia.
  - eapply gives_bind; [exact HB|]. intros s' [H' L]. apply IH; auto. lia.
Qed.
End Rules.

Lemma gives_mono_err {A} (m : res A) (P : A -> Prop) (E E2 : err -> Prop) : (forall e, E e -> E2 e) -> gives m P E -> gives m P E2.
Proof. destruct m; cbn; auto. Qed.
Lemma gives_and {A} (m : res A) (P Q : A -> Prop) (E : err -> Prop) :
  gives m P E -> gives m Q E -> gives m (fun a => P a /\ Q a) E.
Proof. destruct m; cbn; auto. Qed.
