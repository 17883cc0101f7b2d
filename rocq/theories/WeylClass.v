(** Weyl groups: orbits of elements under maps by generators *)

From Coq Require Import List Arith ZArith Lia Bool Sorted.
From Verif Require Import VecModel VecProofs RunModel RunProofs WeylModel WeylSpec WeylTable WeylExchange WeylGroup WeylOps.
Import ListNotations.
Open Scope nat_scope.

(** *** sets of lists *)
Lemma elt_lt_irrefl v : elt_lt v v = false.
Proof. induction v as [|a v IH]; cbn [elt_lt]; [auto|]. now rewrite Nat.ltb_irrefl. Qed.
Lemma elt_lt_total v : forall w, elt_lt v w = false -> elt_lt w v = false -> v = w.
Proof.
  induction v as [|a v IH]; intros [|b w] H H'; try discriminate; [auto|]. cbn [elt_lt] in *. destruct (Nat.ltb_spec a b); [discriminate|]. destruct (Nat.ltb_spec b a); [discriminate|].
  f_equal; [lia|]. now apply IH.
Qed.
Lemma elt_lt_trans u : forall v w, elt_lt u v = true -> elt_lt v w = true -> elt_lt u w = true.
Proof.
  induction u as [|a u IH]; intros [|b v] [|c w] H H'; try discriminate; cbn [elt_lt] in *; auto.
  destruct (Nat.ltb_spec a b), (Nat.ltb_spec b c), (Nat.ltb_spec a c); auto; try lia.
  - destruct (Nat.ltb_spec c b); [discriminate|lia].
  - destruct (Nat.ltb_spec b a); [discriminate|lia].
  - destruct (Nat.ltb_spec b a); [discriminate|]. destruct (Nat.ltb_spec c b); [discriminate|]. destruct (Nat.ltb_spec c a); [lia|]. now apply (IH v).
Qed.
Notation lt_sorted := (StronglySorted (fun v w => elt_lt v w = true)).
Lemma set_insert_ok v l : lt_sorted l -> lt_sorted (fst (set_insert v l)) /\ (forall x, In x (fst (set_insert v l)) <-> x = v \/ In x l) /\
  (snd (set_insert v l) = true <-> ~ In v l) /\ length (fst (set_insert v l)) = length l + (if snd (set_insert v l) then 1 else 0).
Proof.
  induction l as [|w l IH]; intros S; cbn [set_insert].
  - cbn. split; [repeat constructor|]. split; [intros x; intuition|]. split; [intuition|auto].
  - apply StronglySorted_inv in S. destruct S as [S F]. destruct (elt_lt v w) eqn:E1.
    + cbn [fst snd length]. assert (F' : Forall (fun y => elt_lt v y = true) (w :: l)).
      { constructor; [auto|]. apply (Forall_impl _ (fun y => elt_lt_trans v w y E1) F). }
      split; [constructor; [constructor; auto|auto]|]. split; [intros x; cbn; intuition|]. split; [|lia]. split; [intros _ I|auto].
      rewrite Forall_forall in F'. specialize (F' v I). rewrite elt_lt_irrefl in F'. discriminate.
    + destruct (elt_lt w v) eqn:E2.
      * specialize (IH S). destruct (set_insert v l) as [r b]. cbn [fst snd] in *. destruct IH as (I1 & I2 & I3 & I4). split; [|split; [|split]].
        -- constructor; [auto|]. rewrite Forall_forall in *. intros x Ix. apply I2 in Ix. destruct Ix as [->|Ix]; auto.
        -- intros x. cbn [In]. rewrite I2. tauto.
        -- rewrite I3. cbn [In]. split; [intros N [->|I]; [rewrite elt_lt_irrefl in E2; discriminate|auto]|tauto].
        -- cbn [length]. lia.
      * pose proof (elt_lt_total v w E1 E2) as <-. cbn [fst snd]. split; [constructor; auto|]. split; [intros x; cbn; intuition|]. split; [|lia].
        split; [discriminate|]. intros N. exfalso. apply N. now left.
Qed.
Lemma sorted_nodup l : lt_sorted l -> NoDup l.
Proof.
  induction l as [|a l IH]; intros S; [constructor|]. apply StronglySorted_inv in S. destruct S as [S F]. constructor; [|auto]. intros I.
  rewrite Forall_forall in F. specialize (F a I). rewrite elt_lt_irrefl in F. discriminate.
Qed.

(** *** orbits *)
Section Orbit.
Variable (n : nat) (c : nat -> list nat -> list nat) (V : list nat -> Prop).
Hypothesis CV : forall s v, s < n -> V v -> V (c s v).
Hypothesis CI : forall s v v', s < n -> V v -> V v' -> c s v = c s v' -> v = v'.
Inductive reach (w : list nat) : list nat -> Prop :=
| reach_refl : reach w w
| reach_step x s : s < n -> reach w x -> reach w (c s x).
(** the elements met when treating [v] *)
Fixpoint chain (v : list nat) (k : nat) : list nat := match k with O => v | S k => c k (chain v k) end.
Lemma chain_V v k : k <= n -> V v -> V (chain v k).
Proof. induction k as [|k IH]; intros H P; cbn [chain]; [auto|]. apply CV; [lia|]. apply IH; [lia|auto]. Qed.
Lemma chain_inj v v' k : k <= n -> V v -> V v' -> chain v k = chain v' k -> v = v'.
Proof.
  induction k as [|k IH]; intros H P P' E; cbn [chain] in E; [auto|]. apply IH; auto; [lia|]. apply (CI k); auto; try lia; apply chain_V; auto; lia.
Qed.
Lemma chain_reach w v k : k <= n -> reach w v -> reach w (chain v k).
Proof. induction k as [|k IH]; intros H R; cbn [chain]; [auto|]. apply reach_step; [lia|]. apply IH; [lia|auto]. Qed.
(** a finite set closed under all the chains is closed under every map *)
Lemma closed_all F : NoDup F -> (forall x, In x F -> V x) -> (forall x k, In x F -> k <= n -> In (chain x k) F) -> forall x s, s < n -> In x F -> In (c s x) F.
Proof.
  intros N FV CL x s Hs I. assert (SU : incl F (map (fun y => chain y s) F)).
  { apply NoDup_length_incl.
    - clear I CL x. assert (X : forall y, In y F -> V y) by auto. clear FV. induction F as [|a F IH]; [constructor|]. apply NoDup_cons_iff in N. destruct N as [N1 N2].
      cbn [map]. constructor; [|apply IH; auto; intros y I; apply X; now right]. intros I. apply in_map_iff in I. destruct I as (y & E & I).
      apply chain_inj in E; [subst; auto|lia|apply X; now right|apply X; now left].
    - now rewrite map_length.
    - intros y I'. apply in_map_iff in I'. destruct I' as (z & <- & I'). apply CL; [auto|lia]. }
  apply SU in I. apply in_map_iff in I. destruct I as (y & <- & I). apply (CL y (S s) I). lia.
Qed.

Variables (W : weyl_group) (step : list nat -> nat -> res (list nat)) (bound : nat).
Hypothesis RK : w_rank W = n.
Hypothesis ST : forall v s, V v -> s < n -> step v s = Ok (c s v).
Hypothesis BOUND : forall l, NoDup l -> (forall x, In x l -> V x) -> length l <= bound.

Definition inv (w : list nat) (st : list (list nat) * list (list nat)) : Prop :=
  let '(found, todo) := st in
  lt_sorted found /\ In w found /\ (forall x, In x found -> V x /\ reach w x) /\ NoDup todo /\ incl todo found /\
  forall x k, In x found -> ~ In x todo -> k <= n -> In (chain x k) found.
Lemma class_loop_ok w fuel : V w -> bound <= fuel ->
  gives (class_loop W step fuel w) (fun l => lt_sorted l /\ forall x, In x l <-> reach w x) sure.
Proof.
  intros Vw HF. unfold class_loop.
  apply (gives_run _ _ (fun '(found, todo) => lt_sorted found /\ forall x, In x found <-> reach w x)).
  - apply (gives_loop (inv w) (fun '(found, todo) => bound + length todo - length found) (fun '(_, todo) => negb (length todo =? 0))).
    + split; [repeat constructor|]. split; [now left|]. split; [|split; [repeat constructor; auto|split; [apply incl_refl|]]].
      * intros x [<-|[]]. split; [auto|constructor].
      * intros x k [<-|[]] N. exfalso. apply N. now left.
    + cbn. lia.
    + intros [found todo] _. reflexivity.
    + intros [found todo] (SF & Iw & P & N & I & C) T. destruct todo as [|v todo]; [discriminate|]. apply NoDup_cons_iff in N. destruct N as [N1 N2].
      pose proof (BOUND found (sorted_nodup found SF) ltac:(intros x Ix; now apply P)) as BF. split; [cbn [length]; lia|].
      rewrite RK. unfold vget, get. cbn [nth_error of_option bind tl].
      assert (Vv : V v /\ reach w v) by (apply P, I; now left). destruct Vv as [Vv Rv].
      eapply (gives_run _ _ (fun '(v', found', todo') => v' = chain v n /\ lt_sorted found' /\ incl found found' /\ (forall x, In x found' -> V x /\ reach w x) /\ NoDup todo' /\ incl todo' found' /\
         (forall x, In x found' -> ~ In x todo' -> In x found /\ ~ In x todo) /\ length found' + length todo = length found + length todo' /\ ~ In v todo' /\
         forall k, k <= n -> In (chain v k) found')).
      * eapply gives_imp; [|apply (gives_range (fun j '(v', found', todo') => v' = chain v j /\ lt_sorted found' /\ incl found found' /\ (forall x, In x found' -> V x /\ reach w x) /\ NoDup todo' /\ incl todo' found' /\
         (forall x, In x found' -> ~ In x todo' -> In x found /\ ~ In x todo) /\ length found' + length todo = length found + length todo' /\ ~ In v todo' /\
         forall k, k <= j -> In (chain v k) found'))].
        -- intros [[v' f'] t'] H. exact H.
        -- split; [auto|]. split; [auto|]. split; [apply incl_refl|]. split; [auto|]. split; [auto|]. split; [intros x Ix; apply I; now right|]. split; [auto|]. split; [auto|]. split; [auto|].
           intros k Hk. replace k with 0 by lia. apply I. now left.
        -- intros s [[v' f'] t'] Hs (E & S' & Q1 & Q2 & Q3 & Q4 & Q5 & Q6 & Q7 & Q8). assert (Hn : s < n) by lia.
           assert (V' : V v') by (subst v'; apply chain_V; [lia|auto]). rewrite ST by auto. cbn [bind].
           pose proof (set_insert_ok (c s v') f' S') as (J1 & J2 & J3 & J4). destruct (set_insert (c s v') f') as [f2 b]. cbn [fst snd] in *. cbn [gives].
           assert (R2 : reach w (c s v')) by (apply reach_step; [auto|]; subst v'; apply chain_reach; [lia|auto]).
           split; [subst v'; reflexivity|]. split; [auto|]. split; [intros x Ix; apply J2; right; now apply Q1|].
           split; [intros x Ix; apply J2 in Ix; destruct Ix as [->|Ix]; [split; [now apply CV|auto]|now apply Q2]|].
           assert (KEYV : In v f') by (apply (Q8 0); lia).
           destruct b.
           ++ assert (NV : ~ In (c s v') f') by now apply J3. split.
              { apply NoDup_rev in Q3. rewrite <- (rev_involutive t'), <- (rev_involutive [c s v']), <- rev_app_distr. apply NoDup_rev. cbn [rev app]. constructor; [|auto].
                rewrite <- in_rev. intros X. apply NV. now apply Q4. }
              split; [intros x Ix; apply in_app_iff in Ix; apply J2; destruct Ix as [Ix|[<-|[]]]; [right; now apply Q4|now left]|].
              split; [intros x Ix Nx; apply J2 in Ix; rewrite in_app_iff in Nx; destruct Ix as [->|Ix]; [exfalso; apply Nx; right; now left|apply Q5; tauto]|].
              split; [rewrite app_length; cbn [length]; lia|]. split; [rewrite in_app_iff; intros [X|[X|[]]]; [auto|subst v; auto]|].
              intros k Hk. apply J2. destruct (Nat.eq_dec k (S s)) as [->|]; [left; cbn [chain]; now subst v'|right; apply Q8; lia].
           ++ split; [auto|]. split; [intros x Ix; apply J2; right; now apply Q4|].
              assert (IV : In (c s v') f'). { destruct (in_dec (list_eq_dec Nat.eq_dec) (c s v') f') as [|X]; [auto|]. apply J3 in X. discriminate. }
              split; [intros x Ix Nx; apply J2 in Ix; destruct Ix as [->|Ix]; apply Q5; auto|].
              split; [lia|]. split; [auto|]. intros k Hk. apply J2. destruct (Nat.eq_dec k (S s)) as [->|]; [left; cbn [chain]; now subst v'|right; apply Q8; lia].
      * intros [[v' f'] t'] (E & S' & Q1 & Q2 & Q3 & Q4 & Q5 & Q6 & Q7 & Q8). cbn [gives].
        pose proof (BOUND f' (sorted_nodup f' S') ltac:(intros x Ix; now apply Q2)) as BF'.
        assert (LT : length t' <= length f') by (apply (NoDup_incl_length Q3 Q4)).
        split; [|cbn [length]; lia]. split; [auto|]. split; [now apply Q1|]. split; [auto|]. split; [auto|]. split; [auto|].
        intros x k Ix Nx Hk. destruct (list_eq_dec Nat.eq_dec x v) as [->|NE]; [now apply Q8|]. destruct (Q5 x Ix Nx) as [X1 X2]. apply Q1. apply C; auto. intros [X|X]; [congruence|auto].
    + intros [found todo] (SF & Iw & P & N & I & C) T. destruct todo as [|v todo]; [|discriminate]. split; [auto|]. intros x. split; [intros Ix; now apply P|].
      intros R. induction R as [|x s Hs R IH]; [auto|]. apply closed_all; auto.
      * now apply sorted_nodup.
      * intros y Iy. now apply P.
  - intros [found todo] H. exact H.
Qed.
End Orbit.
