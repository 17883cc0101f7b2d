(** Transducer tables: conditions that can be verified by computation, and what follows from them *)

From Coq Require Import List Arith ZArith Lia Bool Ascii Permutation.
From Verif Require Import VecModel VecProofs RunModel RunProofs WeylModel WeylSpec.
Import ListNotations.
Open Scope nat_scope.

(** *** words *)

Lemma alt_length k s t : length (alt k s t) = k.
Proof. revert s t. induction k as [|k IH]; intros; cbn; auto. Qed.
(** alternating words read from the end *)
Fixpoint tla (k s t : nat) : list nat := match k with O => [] | S k => tla k t s ++ [s] end.
Lemma tla_rev k : forall s t, tla k s t = rev (alt k s t).
Proof. induction k as [|k IH]; intros s t; cbn; [auto|]. now rewrite IH. Qed.
Lemma alt_snoc k s t : alt (S k) s t = alt k s t ++ [if Nat.even k then s else t].
Proof.
  revert s t. induction k as [|k IH]; intros s t; [auto|]. cbn [alt] in *. rewrite IH. cbn [app]. f_equal. f_equal.
  rewrite Nat.even_succ, <- Nat.negb_even. now destruct (Nat.even k).
Qed.
Lemma tla_alt k : forall s t, tla k s t = if Nat.even k then alt k t s else alt k s t.
Proof.
  induction k as [|k IH]; intros s t; [auto|]. cbn [tla]. rewrite IH, Nat.even_succ, <- Nat.negb_even.
  rewrite !alt_snoc. destruct (Nat.even k); cbn [negb]; auto.
Qed.
Lemma tla_cons k s t : tla (S k) s t = (if Nat.even k then s else t) :: tla k s t.
Proof.
  rewrite !tla_alt. rewrite Nat.even_succ, <- Nat.negb_even. destruct (Nat.even k); cbn [negb alt]; auto.
Qed.

Section Same.
Variables (n : nat) (m : nat -> nat -> nat).
Notation "u ~ v" := (same n m u v) (at level 70).
Lemma same_cons s u v : u ~ v -> s :: u ~ s :: v.
Proof. intros H. apply (same_app n m [s] [s]); [apply same_refl|auto]. Qed.
Lemma same_snoc s u v : u ~ v -> u ++ [s] ~ v ++ [s].
Proof. intros H. apply same_app; [auto|apply same_refl]. Qed.
Lemma same_app_l u v w : v ~ w -> u ++ v ~ u ++ w.
Proof. intros H. apply same_app; [apply same_refl|auto]. Qed.
Lemma same_app_r u v w : v ~ w -> v ++ u ~ w ++ u.
Proof. intros H. apply same_app; [auto|apply same_refl]. Qed.
Lemma same_undo u s : s < n -> u ++ [s] ++ [s] ~ u.
Proof. intros H. rewrite <- (app_nil_r u) at 2. apply same_app_l. now apply same_square. Qed.
Lemma same_inverse u : over n u -> u ++ rev u ~ [].
Proof.
  induction u as [|s u IH]; intros H; [apply same_refl|]. cbn [rev app]. rewrite app_assoc.
  apply (same_trans n m _ ([s] ++ [] ++ [s])); [|apply same_square, H; now left].
  apply (same_app n m [s] [s]); [apply same_refl|]. apply same_snoc. apply IH. intros x I. apply H. now right.
Qed.
Lemma over_app u v : over n (u ++ v) <-> over n u /\ over n v.
Proof.
  unfold over. split; [intros H; split; intros s I; apply H, in_app_iff; auto|]. intros [A B] s I. apply in_app_iff in I. destruct I; auto.
Qed.
Lemma over_rev u : over n u -> over n (rev u).
Proof. intros H s I. apply H. now apply in_rev. Qed.
Lemma same_inverse_l u : over n u -> rev u ++ u ~ [].
Proof. intros H. rewrite <- (rev_involutive u) at 2. apply same_inverse. now apply over_rev. Qed.
Lemma same_cancel_r u v w : over n w -> u ++ w ~ v ++ w -> u ~ v.
Proof.
  intros H E. assert (X : forall x, x ++ w ++ rev w ~ x) by (intros x; rewrite <- (app_nil_r x) at 2; apply same_app_l, same_inverse; auto).
  apply (same_trans n m _ (u ++ w ++ rev w)); [apply same_sym, X|]. apply (same_trans n m _ (v ++ w ++ rev w)); [|apply X].
  rewrite !app_assoc. now apply same_app_r.
Qed.
Lemma same_cancel_l u v w : over n w -> w ++ u ~ w ++ v -> u ~ v.
Proof.
  intros H E. assert (X : forall x, rev w ++ w ++ x ~ x).
  { intros x. rewrite app_assoc. apply (same_app_r x _ []). now apply same_inverse_l. }
  apply (same_trans n m _ (rev w ++ w ++ u)); [apply same_sym, X|]. apply (same_trans n m _ (rev w ++ w ++ v)); [|apply X]. now apply same_app_l.
Qed.
Lemma same_rev u v : (forall s t, m s t = m t s) -> u ~ v -> rev u ~ rev v.
Proof.
  intros SY. induction 1 as [u|u v H IH|u v w H1 IH1 H2 IH2|u u' v v' H1 IH1 H2 IH2|s Hs|s t Hs Ht Hn].
  - apply same_refl.
  - now apply same_sym.
  - now apply (same_trans n m _ (rev v)).
  - rewrite !rev_app_distr. now apply same_app.
  - now apply same_square.
  - rewrite <- !tla_rev, !tla_alt. destruct (Nat.even (m s t)).
    + apply same_sym. now apply same_braid.
    + now apply same_braid.
Qed.
(** the relation, both sides read from the end *)
Lemma same_tla s t : s < n -> t < n -> s <> t -> tla (m s t) s t ~ tla (m s t) t s.
Proof.
  intros Hs Ht Hn. rewrite !tla_alt. destruct (Nat.even (m s t)); [apply same_sym|]; now apply same_braid.
Qed.
Lemma same_commute u s : s < n -> over n u -> (forall t, In t u -> t <> s /\ m s t = 2) -> u ++ [s] ~ s :: u.
Proof.
  intros Hs. induction u as [|t u IH]; intros O H; [apply same_refl|]. cbn [app].
  assert (Ht : t < n) by (apply O; now left). destruct (H t) as [N2 E]; [now left|].
  apply (same_trans n m _ ([t] ++ s :: u)).
  - apply (same_app_l [t]). apply IH; [intros x I; apply O; now right|intros x I; apply H; now right].
  - apply (same_app_r u ([t] ++ [s]) [s; t]). apply same_sym. pose proof (same_braid n m s t Hs Ht (not_eq_sym N2)) as B. rewrite E in B. exact B.
Qed.
End Same.

(** words in the generators of a part of the diagram *)
Lemma same_map n m n' m' (f : nat -> nat) u v : (forall s, s < n -> f s < n') ->
  (forall s t, s < n -> t < n -> s <> t -> f s <> f t /\ m' (f s) (f t) = m s t) ->
  same n m u v -> same n' m' (map f u) (map f v).
Proof.
  intros F M. assert (AL : forall k s t, map f (alt k s t) = alt k (f s) (f t)) by (induction k; intros; cbn; [auto|now rewrite IHk]).
  induction 1 as [u|u v H IH|u v w H1 IH1 H2 IH2|u u' v v' H1 IH1 H2 IH2|s Hs|s t Hs Ht Hn].
  - apply same_refl.
  - now apply same_sym.
  - now apply (same_trans n' m' _ (map f v)).
  - rewrite !map_app. now apply same_app.
  - cbn. apply same_square. auto.
  - rewrite !AL. destruct (M s t Hs Ht Hn) as [N E]. rewrite <- E. apply same_braid; auto.
Qed.

(** *** the table as a function *)

Definition T (tr : transducer) (x s : nat) : nat := nth s (nth x (tr_table tr) []) 0.
Definition info (tr : transducer) (x : nat) : elem_info := nth x (tr_elt tr) (mk_info 0 None).
Definition len (tr : transducer) (x : nat) : nat := i_length (info tr x).
(** last letter (0 for the first state) *)
Definition last_letter (tr : transducer) (x : nat) : nat := match i_right (info tr x) with Some s => s | None => 0 end.
(** going down along u, v, u, ... *)
Fixpoint descend (tr : transducer) (k z u v : nat) : option nat :=
  match k with
  | O => Some z
  | S k => if T tr z u <? z then descend tr k (T tr z u) v u else None
  end.

Record good_table (m : nat -> nat -> nat) (tr : transducer) : Prop := {
  g_rows : length (tr_table tr) = tr_size tr;
  g_row : forall row, In row (tr_table tr) -> length row = tr_limit tr;
  g_limit : 0 < tr_limit tr;
  g_size : 2 <= tr_size tr <= 256;
  g_start : nth_error (tr_elt tr) 0 = Some (mk_info 0 None);
  g_first : forall s, S s < tr_limit tr -> T tr 0 s = tr_size tr + s;
  g_one : T tr 0 (tr_limit tr - 1) = 1;
  g_tree : forall x, 0 < x < tr_size tr -> exists s, i_right (info tr x) = Some s /\ s < tr_limit tr /\ T tr x s < x;
  g_shift : forall x s, x < tr_size tr -> s < tr_limit tr -> T tr x s < tr_size tr ->
    T tr x s <> x /\ T tr (T tr x s) s = x /\ (T tr x s < x -> len tr x = S (len tr (T tr x s)));
  g_out : forall x s, x < tr_size tr -> s < tr_limit tr -> tr_size tr <= T tr x s -> S (T tr x s - tr_size tr) < tr_limit tr;
  g_length : forall x, x < tr_size tr -> len tr x <= max_piece_length;
  g_last : forall x, S x < tr_size tr -> len tr x < len tr (tr_size tr - 1);
  g_braid : forall z s, z < tr_size tr -> s < tr_limit tr -> T tr z s < z -> s <> last_letter tr z ->
    exists k b, m (last_letter tr z) s = S k /\ descend tr (S k) z (last_letter tr z) s = Some b /\ descend tr (S k) z s (last_letter tr z) = Some b;
  g_fixed : forall z t, 0 < z < tr_size tr -> t < tr_limit tr -> tr_size tr <= T tr z t ->
    exists k b, m (last_letter tr z) t = S k /\ descend tr k z (last_letter tr z) t = Some b /\
      T tr b (if Nat.even k then last_letter tr z else t) = T tr z t }.

(** the word of a piece *)
Fixpoint wd (tr : transducer) (fuel x : nat) : list nat :=
  match fuel with
  | O => []
  | S f => if x =? 0 then [] else let s := last_letter tr x in wd tr f (T tr x s) ++ [s]
  end.
Definition piece_word (tr : transducer) (x : nat) : list nat := wd tr x x.

Lemma good_table_ext m m' tr : (forall a b, a < tr_limit tr -> b < tr_limit tr -> m a b = m' a b) -> good_table m tr -> good_table m' tr.
Proof.
  intros E G. assert (L : forall z, 0 < z < tr_size tr -> last_letter tr z < tr_limit tr).
  { intros z Hz. destruct (g_tree m tr G z Hz) as (s & A & B & _). unfold last_letter. now rewrite A. }
  destruct G. constructor; auto.
  - intros z s Hz Hs HT Hn. rewrite <- E; auto. apply L. lia.
  - intros z t Hz Ht HT. rewrite <- E; auto.
Qed.

Section Good.
Variables (m : nat -> nat -> nat) (tr : transducer).
Hypothesis G : good_table m tr.
Notation n := (tr_limit tr).
Notation N := (tr_size tr).
Notation Tab := (T tr).
Notation "u ~ v" := (same n m u v) (at level 70).

Lemma last_ok x : 0 < x < N -> last_letter tr x < n /\ Tab x (last_letter tr x) < x.
Proof. intros H. destruct (g_tree m tr G x H) as (s & E & L & D). unfold last_letter. rewrite E. auto. Qed.
Lemma wd_enough f : forall x, x < N -> x <= f -> wd tr f x = piece_word tr x.
Proof.
  assert (X : forall f x g, x < N -> x <= f -> x <= g -> wd tr f x = wd tr g x).
  { clear f. induction f as [|f IH]; intros x g HN Hf Hg.
    - assert (x = 0) by lia. subst. destruct g; auto.
    - destruct g as [|g]; [assert (x = 0) by lia; subst; auto|]. cbn [wd]. destruct (Nat.eqb_spec x 0); [auto|].
      destruct (last_ok x ltac:(lia)) as [_ L]. cbv zeta. f_equal. apply IH; lia. }
  intros x HN Hf. apply X; auto.
Qed.
Lemma piece_word_0 : piece_word tr 0 = [].
Proof. reflexivity. Qed.
Lemma piece_word_S x : 0 < x < N -> piece_word tr x = piece_word tr (Tab x (last_letter tr x)) ++ [last_letter tr x].
Proof.
  intros H. destruct (last_ok x H) as [_ L]. unfold piece_word at 1. destruct x as [|y]; [lia|]. cbn [wd].
  destruct (Nat.eqb_spec (S y) 0); [lia|]. cbv zeta. f_equal. apply wd_enough; lia.
Qed.
Lemma piece_over x : x < N -> over n (piece_word tr x).
Proof.
  induction x as [x IH] using lt_wf_ind. intros H. destruct (Nat.eq_dec x 0) as [->|]; [intros s []|].
  destruct (last_ok x ltac:(lia)) as [L D]. rewrite piece_word_S by lia. apply over_app. split; [apply IH; lia|]. intros s [<-|[]]. auto.
Qed.
Lemma piece_length x : x < N -> length (piece_word tr x) = len tr x.
Proof.
  induction x as [x IH] using lt_wf_ind. intros H. destruct (Nat.eq_dec x 0) as [->|].
  - cbn. unfold len, info. pose proof (g_start m tr G) as E. rewrite (nth_error_nth _ _ (mk_info 0 None) E). auto.
  - destruct (last_ok x ltac:(lia)) as [L D]. rewrite piece_word_S by lia. rewrite app_length, IH by lia. cbn.
    destruct (g_shift m tr G x _ H L ltac:(lia)) as (_ & _ & X). rewrite (X D). lia.
Qed.

(** validity of all transitions between states below [b] *)
Definition shifts_ok (b : nat) : Prop :=
  forall x s, x < N -> s < n -> Tab x s < N -> x < b -> Tab x s < b -> piece_word tr x ++ [s] ~ piece_word tr (Tab x s).
Definition outs_ok (b : nat) : Prop :=
  forall x s, x < N -> s < n -> N <= Tab x s -> x < b -> piece_word tr x ++ [s] ~ (Tab x s - N) :: piece_word tr x.

Lemma descend_word B : shifts_ok B -> forall k z u v b, z < N -> u < n -> v < n -> z < B -> descend tr k z u v = Some b ->
  b < N /\ b <= z /\ piece_word tr z ~ piece_word tr b ++ tla k u v.
Proof.
  intros HB. induction k as [|k IH]; intros z u v b Hz Hu Hv HzB E; cbn [descend] in E.
  - injection E as <-. split; [auto|]. split; [auto|]. cbn. rewrite app_nil_r. apply same_refl.
  - destruct (Nat.ltb_spec (Tab z u) z) as [L|]; [|discriminate]. destruct (IH (Tab z u) v u b ltac:(lia) Hv Hu ltac:(lia) E) as (A & B1 & C).
    split; [auto|]. split; [lia|]. cbn [tla]. rewrite app_assoc.
    apply (same_trans n m _ (piece_word tr (Tab z u) ++ [u])); [|now apply same_snoc].
    apply (same_trans n m _ ((piece_word tr z ++ [u]) ++ [u])).
    + rewrite <- app_assoc. apply same_sym, same_undo. auto.
    + apply same_snoc. apply HB; auto; lia.
Qed.

Lemma validity B : shifts_ok B /\ outs_ok B.
Proof.
  induction B as [B IH] using lt_wf_ind.
  (* a transition down from z *)
  assert (DN : forall z s, z < B -> z < N -> s < n -> Tab z s < z -> piece_word tr (Tab z s) ++ [s] ~ piece_word tr z).
  { intros z s HB HN Hs D. destruct (last_ok z ltac:(lia)) as [L D1]. destruct (Nat.eq_dec s (last_letter tr z)) as [->|NE].
    - rewrite (piece_word_S z) by lia. apply same_refl.
    - destruct (g_braid m tr G z s HN Hs D NE) as (k & b & EM & E1 & E2). destruct (IH z HB) as [SZ _].
      set (s' := last_letter tr z) in *. cbn [descend] in E1, E2.
      destruct (Nat.ltb_spec (Tab z s') z) as [_|]; [|lia]. destruct (Nat.ltb_spec (Tab z s) z) as [_|]; [|lia].
      destruct (descend_word z SZ k (Tab z s') s s' b ltac:(lia) Hs L ltac:(lia) E1) as (_ & _ & W1).
      destruct (descend_word z SZ k (Tab z s) s' s b ltac:(lia) L Hs ltac:(lia) E2) as (_ & _ & W2).
      rewrite (piece_word_S z) by lia. fold s'.
      apply (same_trans n m _ (piece_word tr b ++ tla (S k) s s')).
      + cbn [tla]. rewrite app_assoc. now apply same_snoc.
      + apply (same_trans n m _ (piece_word tr b ++ tla (S k) s' s)).
        * apply same_app_l, same_sym. rewrite <- EM. apply same_tla; auto.
        * cbn [tla]. rewrite app_assoc. apply same_snoc. now apply same_sym. }
  assert (SH : shifts_ok B).
  { intros x s HN Hs Hy HB HyB. destruct (g_shift m tr G x s HN Hs Hy) as (NE & BK & _).
    destruct (Nat.lt_ge_cases (Tab x s) x) as [D|D].
    - apply (same_trans n m _ ((piece_word tr (Tab x s) ++ [s]) ++ [s])).
      + apply same_snoc, same_sym. now apply DN.
      + rewrite <- app_assoc. now apply same_undo.
    - rewrite <- BK at 1. apply DN; auto. rewrite BK. lia. }
  split; [exact SH|]. intros z t HN Ht HO HB. destruct (Nat.eq_dec z 0) as [->|NZ].
  - cbn [app]. destruct (Nat.eq_dec t (n - 1)) as [->|].
    + rewrite (g_one m tr G) in HO. pose proof (g_size m tr G). lia.
    + rewrite (g_first m tr G) by lia. replace (N + t - N) with t by lia. apply same_refl.
  - destruct (g_fixed m tr G z t ltac:(lia) Ht HO) as (k & b & EM & ED & ET). destruct (last_ok z ltac:(lia)) as [L D1].
    set (s' := last_letter tr z) in *. assert (NE : s' <> t) by (intros ->; lia).
    destruct (IH z HB) as [SZ OZ].
    destruct k as [|k].
    { (* m=1: trivial relation *) cbn in ED. injection ED as <-. cbn [Nat.even] in ET. lia. }
    pose proof ED as ED'. cbn [descend] in ED'. destruct (Nat.ltb_spec (Tab z s') z) as [_|]; [|lia].
    destruct (descend_word z SZ k (Tab z s') t s' b ltac:(lia) Ht L ltac:(lia) ED') as (HbN & Hbz & W1).
    assert (Wz : piece_word tr z ~ piece_word tr b ++ tla (S k) s' t).
    { rewrite (piece_word_S z) by lia. fold s'. cbn [tla]. rewrite app_assoc. now apply same_snoc. }
    set (u := if Nat.even (S k) then s' else t) in *.
    assert (Hu : u < n) by (unfold u; destruct (Nat.even (S k)); auto).
    pose proof (OZ b u HbN Hu ltac:(lia) ltac:(lia)) as OB. rewrite ET in OB.
    apply (same_trans n m _ (piece_word tr b ++ tla (S (S k)) t s')).
    + cbn [tla]. cbn [tla] in Wz. rewrite app_assoc. apply same_snoc. exact Wz.
    + apply (same_trans n m _ (piece_word tr b ++ tla (S (S k)) s' t)).
      * apply same_app_l, same_sym. rewrite <- EM. now apply same_tla.
      * rewrite tla_cons. fold u. change (u :: tla (S k) s' t) with ([u] ++ tla (S k) s' t). rewrite app_assoc.
        apply (same_trans n m _ (((Tab z t - N) :: piece_word tr b) ++ tla (S k) s' t)); [now apply same_app_r|].
        cbn [app]. apply same_cons. now apply same_sym.
Qed.

Theorem shift_valid x s : x < N -> s < n -> Tab x s < N -> piece_word tr x ++ [s] ~ piece_word tr (Tab x s).
Proof. intros A B C. destruct (validity N) as [H _]. apply H; auto. Qed.
Theorem out_valid x s : x < N -> s < n -> N <= Tab x s -> piece_word tr x ++ [s] ~ (Tab x s - N) :: piece_word tr x.
Proof. intros A B C. destruct (validity N) as [_ H]. apply H; auto. Qed.
End Good.
