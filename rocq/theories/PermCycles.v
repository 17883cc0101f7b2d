(** In-place permutation along cycles, and the sign. *)

From Coq Require Import List Arith Bool ZArith Lia Permutation.
From Verif Require Import VecModel VecProofs PermModel PermSpec PermProofs.
Import ListNotations.
Open Scope nat_scope.

(** ** the cycle walk as a sequence of swaps *)
Section Walk.
Context {A : Type} (n : nat) (pi : list nat) (v : list A).
Hypothesis Hpi : is_perm n pi.

(** everything in S has been moved, nothing else has *)
Definition moved (S : nat -> bool) (w : list A) : Prop :=
  length w = length v /\
  (forall x y, get pi x = Some y -> S x = S y) /\
  (forall x y, get pi x = Some y -> S x = true -> get w y = get v x) /\
  (forall y, S y = false -> get w y = get v y) /\
  (forall x, S x = true -> x < n).
(** while walking the cycle of i; p was moved last, j is next *)
Definition walking (i : nat) (S : nat -> bool) (w : list A) (p j : nat) : Prop :=
  length w = length v /\ S i = true /\ S p = true /\ get pi p = Some j /\ get w i = get v p /\
  (forall x, S x = true -> x < n) /\
  (forall x y, get pi x = Some y -> S x = true -> x <> p -> get w y = get v x /\ S y = true /\ y <> i) /\
  (forall y, S y = false -> get w y = get v y) /\
  (forall y, S y = true -> y <> i -> exists x, S x = true /\ x <> p /\ get pi x = Some y).

Lemma walk_start i S w j : moved S w -> i < n -> S i = false -> get pi i = Some j ->
  walking i (fun x => (x =? i) || S x) w i j.
Proof.
  intros (L & C & M & U & B) Hi Si Ej. split; [exact L|]. rewrite Nat.eqb_refl. split; [reflexivity|]. split; [reflexivity|].
  split; [exact Ej|]. split; [apply U; exact Si|]. split; [|split; [|split]].
  - intros x Hx. apply orb_prop in Hx as [Hx|Hx]; [apply Nat.eqb_eq in Hx; lia|auto].
  - intros x y Exy Hx Nx. apply orb_prop in Hx as [Hx|Hx]; [apply Nat.eqb_eq in Hx; lia|].
    split; [apply (M _ _ Exy Hx)|]. assert (Sy : S y = true) by (rewrite <- (C _ _ Exy); exact Hx).
    split; [rewrite Sy; apply orb_true_r|]. intros ->. congruence.
  - intros y Hy. apply orb_false_elim in Hy. apply U. apply Hy.
  - intros y Hy Ny. apply orb_prop in Hy as [Hy|Hy]; [apply Nat.eqb_eq in Hy; lia|].
    destruct (perm_surj _ _ Hpi y (B _ Hy)) as (x & Ex & Hx). exists x. assert (Sx : S x = true) by (rewrite (C _ _ Ex); exact Hy).
    split; [rewrite Sx; apply orb_true_r|]. split; [|exact Ex]. intros ->. congruence.
Qed.
Lemma walk_fresh i S w p j : walking i S w p j -> j <> i -> S j = false.
Proof.
  intros (L & Si & Sp & Ej & Wi & B & M & U & V) N. destruct (S j) eqn:E; [|reflexivity].
  destruct (V j E N) as (x & Sx & Nx & Ex). exfalso. apply Nx. eapply perm_inj; eauto.
Qed.
Lemma walk_bound i S w p j : walking i S w p j -> i < n /\ p < n /\ j < n.
Proof.
  intros (L & Si & Sp & Ej & Wi & B & M & U & V). split; [auto|]. split; [auto|]. apply (perm_lt _ _ Hpi _ _ Ej).
Qed.
Lemma walk_step i S w p j j' w' : walking i S w p j -> j <> i -> get pi j = Some j' ->
  length w' = length w -> (forall k, get w' k = if k =? j then get w i else if k =? i then get w j else get w k) ->
  walking i (fun x => (x =? j) || S x) w' j j'.
Proof.
  intros W N Ej' Lw' Gw'. assert (Sj := walk_fresh _ _ _ _ _ W N). assert (Bd := walk_bound _ _ _ _ _ W).
  destruct W as (L & Si & Sp & Ej & Wi & B & M & U & V).
  assert (Npj : p <> j) by (intros ->; congruence).
  split; [lia|]. split; [rewrite Si; apply orb_true_r|]. rewrite Nat.eqb_refl. split; [reflexivity|]. split; [exact Ej'|].
  split; [|split; [|split; [|split]]].
  - rewrite Gw'. replace (i =? j) with false by (symmetry; apply Nat.eqb_neq; lia). rewrite Nat.eqb_refl. apply U. exact Sj.
  - intros x Hx. apply orb_prop in Hx as [Hx|Hx]; [apply Nat.eqb_eq in Hx; lia|auto].
  - intros x y Exy Hx Nx. apply orb_prop in Hx as [Hx|Hx]; [apply Nat.eqb_eq in Hx; lia|].
    destruct (Nat.eq_dec x p) as [->|Np].
    + assert (y = j) by congruence. subst y. rewrite Gw', Nat.eqb_refl. auto.
    + destruct (M x y Exy Hx Np) as (E1 & E2 & E3). split; [|split; [rewrite E2; apply orb_true_r|exact E3]].
      rewrite Gw'. destruct (Nat.eqb_spec y j) as [->|]; [congruence|]. destruct (Nat.eqb_spec y i); [lia|]. exact E1.
  - intros y Hy. apply orb_false_elim in Hy as [Hy Sy]. rewrite Gw', Hy. destruct (Nat.eqb_spec y i) as [->|]; [congruence|]. auto.
  - intros y Hy Ny. apply orb_prop in Hy as [Hy|Hy].
    + apply Nat.eqb_eq in Hy. subst y. exists p. split; [rewrite Sp; apply orb_true_r|]. auto.
    + destruct (V y Hy Ny) as (x & Sx & Nx & Ex). exists x. split; [rewrite Sx; apply orb_true_r|].
      split; [|exact Ex]. intros ->. congruence.
Qed.
Lemma walk_end i S w p : walking i S w p i -> moved S w.
Proof.
  intros (L & Si & Sp & Ej & Wi & B & M & U & V). split; [exact L|].
  assert (F : forall x y, get pi x = Some y -> S x = true -> get w y = get v x /\ S y = true).
  { intros x y Exy Hx. destruct (Nat.eq_dec x p) as [->|Np].
    - assert (y = i) by congruence. subst y. auto.
    - destruct (M x y Exy Hx Np) as (? & ? & ?). auto. }
  split; [|split; [|split]]; auto.
  - intros x y Exy. destruct (S x) eqn:Ex.
    + symmetry. apply (F _ _ Exy Ex).
    + destruct (S y) eqn:Ey; [|reflexivity]. destruct (Nat.eq_dec y i) as [->|Ny].
      * assert (x = p) by (eapply perm_inj; eauto). congruence.
      * destruct (V y Ey Ny) as (z & Sz & Nz & Ez). assert (x = z) by (eapply perm_inj; eauto). congruence.
  - intros x y Exy Hx. apply (F _ _ Exy Hx).
Qed.
Lemma moved_ext S S' w : moved S w -> (forall x, S x = S' x) -> moved S' w.
Proof.
  intros (L & C & M & U & B) E. split; [exact L|]. split; [|split; [|split]].
  - intros x y Exy. rewrite <- !E. eauto.
  - intros x y Exy. rewrite <- E. eauto.
  - intros y. rewrite <- E. eauto.
  - intros x. rewrite <- E. eauto.
Qed.
Lemma walking_ext i S S' w p j : walking i S w p j -> (forall x, S x = S' x) -> walking i S' w p j.
Proof.
  intros (L & Si & Sp & Ej & Wi & B & M & U & V) E. split; [exact L|]. rewrite <- !E. split; [exact Si|]. split; [exact Sp|].
  split; [exact Ej|]. split; [exact Wi|]. split; [|split; [|split]].
  - intros x. rewrite <- E. eauto.
  - intros x y Exy. rewrite <- !E. eauto.
  - intros y. rewrite <- E. eauto.
  - intros y. rewrite <- E. intros Sy Ny. destruct (V y Sy Ny) as (x & Sx & R). exists x. rewrite <- E. auto.
Qed.
End Walk.

(** number of unseen positions *)
Definition unseen (s : list bool) : nat := card negb s.
Lemma unseen_put s j s' : get s j = Some false -> put s j true = Some s' -> unseen s = S (unseen s').
Proof.
  unfold unseen, card. revert j s'. induction s as [|b s IH]; intros [|j] s' G P; try discriminate.
  - cbn in G. injection G as ->. cbn in P. injection P as <-. reflexivity.
  - cbn [put] in P. destruct (put s j true) as [t|] eqn:E; [|discriminate]. injection P as <-.
    specialize (IH j t G E). cbn [filter]. destruct (negb b); cbn [length]; lia.
Qed.
Lemma unseen_le s : unseen s <= length s.
Proof. unfold unseen, card. induction s as [|b s IH]; cbn [filter length]; [lia|]. destruct (negb b); cbn [length]; lia. Qed.

Definition at_ (s : list bool) (x : nat) : bool := nth x s false.
Lemma at_get s x : x < length s -> get s x = Some (at_ s x).
Proof. apply get_nth. Qed.
Lemma at_put s j b s' : put s j b = Some s' -> forall x, at_ s' x = if x =? j then b else at_ s x.
Proof.
  intros P x. destruct (put_inv _ _ _ _ P) as (L & L' & G). specialize (G x). unfold at_.
  destruct (Nat.lt_ge_cases x (length s)) as [Hx|Hx].
  - rewrite (get_nth s' x false), (get_nth s x false) in G by lia. destruct (Nat.eqb_spec x j); congruence.
  - rewrite !nth_overflow by lia. destruct (Nat.eqb_spec x j); [lia|reflexivity].
Qed.
Lemma at_ge s x : length s <= x -> at_ s x = false.
Proof. apply nth_overflow. Qed.
Lemma at_repeat n x : at_ (repeat false n) x = false.
Proof. unfold at_. revert x. induction n; intros [|x]; cbn; auto. Qed.

(** ** permute *)
Section Permute.
Context {A : Type} (n : nat) (pi : list nat) (v : list A).
Hypothesis Hpi : is_perm n pi.
Hypothesis Hv : n <= length v.

(** the vector with tmp put back *)
Definition back (i : nat) (tmp : A) (v' w : list A) : Prop :=
  length v' = length w /\ get w i = Some tmp /\ forall y, y <> i -> get v' y = get w y.

Lemma permute_inner i j tmp v' s : i < n -> length s = n -> get pi i = Some j -> 
  (exists w, walking n pi v i (at_ s) w i j /\ back i tmp v' w) ->
  exists tmp' v'' s', while n (fun '(_, _, _, j) => Some (negb (j =? i)))
          (fun '(tmp, v, seen, j) =>
             do x <- get v j; do v <- put v j tmp; do seen <- put seen j true; do j <- get pi j;
             Some (x, v, seen, j)) (tmp, v', s, j) = Some (tmp', v'', s', i) /\ length s' = n /\
    exists w, moved n pi v (at_ s') w /\ back i tmp' v'' w /\ (forall x, at_ s x = true -> at_ s' x = true) /\ at_ s' i = true.
Proof.
  intros Hi Ls Ej (w & W & Bk).
  destruct (while_rule (S := A * list A * list bool * nat)
    (fun '(tmp, v', s', j) => length s' = n /\ (exists w p, walking n pi v i (at_ s') w p j /\ back i tmp v' w) /\
       forall x, at_ s x = true -> at_ s' x = true)
    (fun '(_, _, s', _) => unseen s')
    (fun '(_, _, _, j) => negb (j =? i)) n (fun '(_, _, _, j) => Some (negb (j =? i)))
          (fun '(tmp, v, seen, j) =>
             do x <- get v j; do v <- put v j tmp; do seen <- put seen j true; do j <- get pi j;
             Some (x, v, seen, j)) (tmp, v', s, j)) as ([[[tmp' v''] s'] j'] & E & (Ls' & (w' & p' & W' & Bk') & Mono) & C).
  - split; [exact Ls|]. split; [exists w, i; auto|auto].
  - rewrite <- Ls. apply unseen_le.
  - intros [[[? ?] ?] ?] _. reflexivity.
  - intros [[[t u] s1] j1] (Ls1 & (w1 & p1 & W1 & B1 & B2 & B3) & Mo) C.
    assert (N : j1 <> i) by (intros ->; rewrite Nat.eqb_refl in C; discriminate). clear C.
    assert (Fr := walk_fresh n pi v Hpi _ _ _ _ _ W1 N). destruct (walk_bound n pi v Hpi _ _ _ _ _ W1) as (_ & Hp1 & Hj1).
    assert (Lw1 : length w1 = length v) by apply W1.
    destruct (get_some u j1) as [x Ex]; [lia|]. rewrite Ex.
    destruct (put_spec u j1 t) as (u' & Eu & Lu & Gu); [lia|]. rewrite Eu.
    destruct (put_spec s1 j1 true) as (s2 & Es & Lss & Gs); [lia|]. rewrite Es.
    destruct (perm_get _ _ Hpi j1 Hj1) as (j2 & Ej2 & Hj2). rewrite Ej2.
    exists (x, u', s2, j2). split; [reflexivity|].
    assert (F1 : get s1 j1 = Some false) by (rewrite at_get by lia; congruence).
    split; [|pose proof (unseen_put _ _ _ F1 Es); lia]. split; [lia|]. split.
    + destruct (vswap_spec w1 i j1) as (w2 & Ew & Lw2 & Gw2); [lia|lia|]. exists w2, j1. split.
      * eapply walking_ext; [eapply walk_step; eauto|]. intros y. cbv beta. rewrite (at_put _ _ _ _ Es).
        destruct (y =? j1); reflexivity.
      * split; [lia|]. split.
        -- rewrite Gw2. replace (i =? j1) with false by (symmetry; apply Nat.eqb_neq; lia). rewrite Nat.eqb_refl.
           rewrite <- B3 by lia. exact Ex.
        -- intros y Ny. rewrite Gu, Gw2. destruct (Nat.eqb_spec y j1); [congruence|].
           destruct (Nat.eqb_spec y i); [lia|]. apply B3. exact Ny.
    + intros y Hy. rewrite (at_put _ _ _ _ Es). rewrite (Mo y Hy). destruct (y =? j1); reflexivity.
  - assert (j' = i) by (apply Nat.eqb_eq; destruct (j' =? i); [reflexivity|discriminate]). subst j'.
    exists tmp', v'', s'. split; [exact E|]. split; [exact Ls'|]. exists w'. split; [eapply walk_end; eauto|].
    split; [exact Bk'|]. split; [exact Mono|]. apply Mono. apply W.
Qed.

Lemma permute_correct : exists r, permute pi v = Some r /\ length r = length v /\
  (forall i j, get pi i = Some j -> get r j = get v i) /\ (forall i, n <= i -> get r i = get v i).
Proof.
  unfold permute. assert (Lp := perm_len _ _ Hpi). rewrite Lp.
  match goal with |- exists r, (match for_up n 0 ?b ?st with _ => _ end) = _ /\ _ =>
    destruct (for_up_rule (fun i '(w, s) => length s = n /\ moved n pi v (at_ s) w /\ forall x, x < i -> at_ s x = true) n 0 b st)
      as ([w s] & E & Ls & M & F) end.
  - split; [apply repeat_length|]. split; [|intros; lia]. split; [reflexivity|].
    split; [intros; rewrite !at_repeat; reflexivity|]. split; [intros x y _ X; rewrite at_repeat in X; discriminate|].
    split; [reflexivity|]. intros x X. rewrite at_repeat in X. discriminate.
  - intros i [w s] Hi (Ls & M & F). rewrite at_get by lia. destruct (at_ s i) eqn:Si; cbn [negb].
    + exists (w, s). split; [reflexivity|]. split; [exact Ls|]. split; [exact M|]. intros x Hx.
      destruct (Nat.eq_dec x i) as [->|]; [exact Si|apply F; lia].
    + assert (Lw : length w = length v) by apply M.
      destruct (put_spec s i true) as (s1 & Es & Lss & Gs); [lia|]. rewrite Es.
      destruct (perm_get _ _ Hpi i) as (j & Ej & Hj); [lia|]. rewrite Ej.
      assert (W := walk_start n pi v Hpi i _ _ _ M ltac:(lia) Si Ej).
      assert (W1 : walking n pi v i (at_ s1) w i j).
      { eapply walking_ext; [exact W|]. intros x. cbv beta. rewrite (at_put _ _ _ _ Es). destruct (x =? i); reflexivity. }
      destruct (Nat.eqb_spec j i) as [->|Nj]; cbn [negb].
      * exists (w, s1). split; [reflexivity|]. split; [lia|]. split; [eapply walk_end; eauto|].
        intros x Hx. rewrite (at_put _ _ _ _ Es). destruct (Nat.eqb_spec x i); [reflexivity|]. apply F. lia.
      * destruct (get_some w i) as [t Et]; [lia|]. rewrite Et.
        destruct (permute_inner i j t w s1) as (t' & w' & s' & Ew & Ls' & w2 & M2 & (B1 & B2 & B3) & Mo & Si'); [lia|lia|exact Ej| |].
        { exists w. split; [exact W1|]. split; [reflexivity|]. split; [exact Et|reflexivity]. }
        rewrite Ew. assert (Lw2 : length w2 = length v) by apply M2.
        destruct (put_spec w' i t') as (w3 & E3 & L3 & G3); [lia|]. rewrite E3.
        exists (w3, s'). split; [reflexivity|]. split; [exact Ls'|].
        assert (w3 = w2). { apply vec_ext; [lia|]. intros k Hk. rewrite G3. destruct (Nat.eqb_spec k i) as [->|Nk]; [congruence|]. apply B3. exact Nk. }
        subst w3. split; [exact M2|]. intros x Hx. destruct (Nat.eq_dec x i) as [->|]; [exact Si'|].
        apply Mo. rewrite (at_put _ _ _ _ Es). destruct (x =? i); [reflexivity|]. apply F. lia.
  - rewrite E. exists w. split; [reflexivity|]. destruct M as (L & C & M & U & B). split; [exact L|]. split.
    + intros i j Ej. apply M; [exact Ej|]. apply F. apply (perm_lt _ _ Hpi) in Ej. lia.
    + intros i Hi. apply U. apply at_ge. lia.
Qed.
End Permute.

(** ** inversions *)
Lemma card_app {A} (P : A -> bool) l l' : card P (l ++ l') = card P l + card P l'.
Proof. unfold card. rewrite filter_app, app_length. reflexivity. Qed.
Lemma card_cons {A} (P : A -> bool) x l : card P (x :: l) = (if P x then 1 else 0) + card P l.
Proof. unfold card. cbn [filter]. destruct (P x); reflexivity. Qed.
Lemma card_perm {A} (P : A -> bool) l l' : Permutation l l' -> card P l = card P l'.
Proof.
  induction 1 as [|x l l' _ IH|x y l|l l1 l2 _ IH1 _ IH2]; rewrite ?card_cons; lia.
Qed.
Fixpoint cross (l l' : list nat) : nat :=
  match l with
  | [] => 0
  | x :: t => card (fun y => y <? x) l' + cross t l'
  end.
Lemma inversions_app l l' : inversions (l ++ l') = inversions l + inversions l' + cross l l'.
Proof.
  induction l as [|x l IH]; cbn [app inversions cross]; [lia|]. rewrite IH.
  pose proof (card_app (fun y => y <? x) l l') as C. unfold card in *. lia.
Qed.
Lemma cross_perm_r l l1 l2 : Permutation l1 l2 -> cross l l1 = cross l l2.
Proof. intros H. induction l as [|x l IH]; cbn [cross]; [reflexivity|]. rewrite (card_perm _ _ _ H). lia. Qed.
Lemma cross_perm_l l1 l2 l : Permutation l1 l2 -> cross l1 l = cross l2 l.
Proof. induction 1; cbn [cross]; lia. Qed.
Lemma cross_app_l l1 l2 l : cross (l1 ++ l2) l = cross l1 l + cross l2 l.
Proof. induction l1; cbn [app cross]; lia. Qed.
Lemma cross_one l x : cross l [x] = card (fun y => x <? y) l.
Proof. induction l as [|y l IH]; [reflexivity|]. cbn [cross]. rewrite IH, !card_cons. unfold card. cbn. lia. Qed.
Lemma card_split l x : ~ In x l -> card (fun y => y <? x) l + card (fun y => x <? y) l = length l.
Proof.
  induction l as [|y l IH]; intros H; [reflexivity|]. rewrite !card_cons. cbn [length].
  assert (~ In x l) by (intros I; apply H; right; auto). assert (x <> y) by (intros ->; apply H; left; auto).
  specialize (IH H0). destruct (Nat.ltb_spec y x), (Nat.ltb_spec x y); lia.
Qed.
Lemma swap_middle x y B : x <> y -> ~ In x B -> ~ In y B ->
  Nat.odd (inversions (x :: B ++ [y])) = negb (Nat.odd (inversions (y :: B ++ [x]))).
Proof.
  intros N Nx Ny. cbn [inversions]. rewrite !inversions_app, !cross_one.
  fold (card (fun z => z <? x) (B ++ [y])). fold (card (fun z => z <? y) (B ++ [x])). rewrite !card_app, !card_cons.
  pose proof (card_split B x Nx). pose proof (card_split B y Ny).
  set (a := card (fun z => z <? x) B) in *. set (b := card (fun z => x <? z) B) in *.
  set (c := card (fun z => z <? y) B) in *. set (d := card (fun z => y <? z) B) in *.
  set (i := inversions B). change (inversions [y]) with 0. change (inversions [x]) with 0.
  change (card (fun z => z <? x) []) with 0. change (card (fun z => z <? y) []) with 0.
  assert (E : exists k, a + ((if y <? x then 1 else 0) + 0) + (i + 0 + d) + (c + ((if x <? y then 1 else 0) + 0) + (i + 0 + b)) = 2 * k + 1).
  { exists (length B + i). destruct (Nat.ltb_spec y x), (Nat.ltb_spec x y); lia. }
  destruct E as [k E]. apply (f_equal Nat.odd) in E. rewrite !Nat.odd_add in E.
  rewrite Nat.odd_mul in E. change (Nat.odd 2) with false in E. change (Nat.odd 1) with true in E. cbn [andb xorb] in E.
  rewrite !Nat.odd_add. revert E.
  generalize (Nat.odd a) (Nat.odd b) (Nat.odd c) (Nat.odd d) (Nat.odd i) (Nat.odd (if y <? x then 1 else 0)) (Nat.odd (if x <? y then 1 else 0)).
  change (Nat.odd 0) with false. intros [] [] [] [] [] [] []; cbn; congruence.
Qed.
Lemma swap_parity_lists P B C x y : NoDup (P ++ x :: B ++ y :: C) ->
  Nat.odd (inversions (P ++ y :: B ++ x :: C)) = negb (Nat.odd (inversions (P ++ x :: B ++ y :: C))).
Proof.
  intros N.
  assert (Pm : Permutation (x :: B ++ [y]) (y :: B ++ [x])).
  { transitivity (y :: x :: B); [|apply perm_skip; apply Permutation_cons_append].
    transitivity (x :: y :: B); [|apply perm_swap]. apply perm_skip. symmetry. apply Permutation_cons_append. }
  assert (E1 : forall a b, P ++ a :: B ++ b :: C = P ++ (a :: B ++ [b]) ++ C).
  { intros. cbn [app]. rewrite <- app_assoc. reflexivity. }
  rewrite !E1, !inversions_app.
  assert (N1 := NoDup_remove_2 _ _ _ N). assert (N2 := NoDup_remove_1 _ _ _ N). rewrite app_assoc in N2.
  assert (N3 := NoDup_remove_2 _ _ _ N2).
  assert (x <> y) by (intros ->; apply N1; rewrite !in_app_iff; right; right; left; auto).
  assert (~ In x B) by (intros I; apply N1; rewrite !in_app_iff; auto).
  assert (~ In y B) by (intros I; apply N3; rewrite !in_app_iff; auto).
  rewrite (cross_perm_r P _ ((x :: B ++ [y]) ++ C)) by (apply Permutation_app_tail; symmetry; exact Pm).
  rewrite (cross_perm_l _ _ C (Permutation_sym Pm)).
  pose proof (swap_middle x y B) as S. rewrite !Nat.odd_add. rewrite S by auto.
  generalize (Nat.odd (inversions (y :: B ++ [x]))). generalize (Nat.odd (cross P ((x :: B ++ [y]) ++ C))).
  generalize (Nat.odd (cross (x :: B ++ [y]) C)). generalize (Nat.odd (inversions P)). generalize (Nat.odd (inversions C)).
  intros [] [] [] [] []; reflexivity.
Qed.
Lemma split_at {A} (l : list A) i x : get l i = Some x -> exists p q, l = p ++ x :: q /\ length p = i.
Proof. intros H. apply nth_error_split in H. exact H. Qed.
Lemma get_mid {A} (p q : list A) x k : get (p ++ x :: q) k = if k =? length p then Some x else if k <? length p then get p k else get q (k - length p - 1).
Proof.
  rewrite get_app. destruct (Nat.ltb_spec k (length p)), (Nat.eqb_spec k (length p)); try lia; [reflexivity| |].
  - subst k. rewrite Nat.sub_diag. reflexivity.
  - destruct (k - length p) as [|m] eqn:E; [lia|]. cbn [Nat.sub]. rewrite Nat.sub_0_r. reflexivity.
Qed.
Lemma swap_lists {A} (l w : list A) i j : i < j -> j < length l -> length w = length l ->
  (forall k, get w k = if k =? j then get l i else if k =? i then get l j else get l k) ->
  exists P B C x y, l = P ++ x :: B ++ y :: C /\ w = P ++ y :: B ++ x :: C.
Proof.
  intros Hij Hj L G. destruct (get_some l i) as [x Ex]; [lia|]. destruct (split_at _ _ _ Ex) as (P & Q & -> & LP).
  destruct (get_some (P ++ x :: Q) j Hj) as [y Ey]. rewrite get_mid in Ey.
  destruct (Nat.eqb_spec j (length P)); [lia|]. destruct (Nat.ltb_spec j (length P)); [lia|].
  destruct (split_at _ _ _ Ey) as (B & C & -> & LB). exists P, B, C, x, y. split; [reflexivity|].
  apply vec_ext; [rewrite L, !app_length; cbn; rewrite !app_length; reflexivity|]. intros k Hk.
  rewrite G. rewrite !get_mid.
  destruct (Nat.eqb_spec k j) as [->|Nj].
  - replace (i =? length P) with true by (symmetry; apply Nat.eqb_eq; lia).
    replace (j =? length P) with false by (symmetry; apply Nat.eqb_neq; lia).
    destruct (Nat.ltb_spec j (length P)); [lia|].
    replace (j - length P - 1 =? length B) with true by (symmetry; apply Nat.eqb_eq; lia). reflexivity.
  - destruct (Nat.eqb_spec k i) as [->|Ni].
    + replace (i =? length P) with true by (symmetry; apply Nat.eqb_eq; lia).
      replace (j =? length P) with false by (symmetry; apply Nat.eqb_neq; lia).
      destruct (Nat.ltb_spec j (length P)); [lia|].
      replace (j - length P - 1 =? length B) with true by (symmetry; apply Nat.eqb_eq; lia). reflexivity.
    + destruct (Nat.eqb_spec k (length P)); [lia|]. destruct (Nat.ltb_spec k (length P)); [reflexivity|].
      destruct (Nat.eqb_spec (k - length P - 1) (length B)); [lia|]. reflexivity.
Qed.
Lemma swap_parity l w i j : NoDup l -> i <> j -> i < length l -> j < length l -> length w = length l ->
  (forall k, get w k = if k =? j then get l i else if k =? i then get l j else get l k) ->
  NoDup w /\ Nat.odd (inversions w) = negb (Nat.odd (inversions l)).
Proof.
  intros N Nij Hi Hj L G.
  assert (E : exists P B C x y, l = P ++ x :: B ++ y :: C /\ w = P ++ y :: B ++ x :: C).
  { destruct (Nat.lt_ge_cases i j) as [H|H].
    - eapply swap_lists; eauto.
    - eapply (swap_lists l w j i); [lia|exact Hi|exact L|]. intros k. rewrite G.
      destruct (Nat.eqb_spec k j), (Nat.eqb_spec k i); try reflexivity; lia. }
  destruct E as (P & B & C & x & y & -> & ->). split; [|apply swap_parity_lists; exact N].
  eapply Permutation_NoDup; [|exact N]. apply Permutation_app_head.
  transitivity (y :: x :: B ++ C).
  - transitivity (x :: y :: B ++ C); [|apply perm_swap]. apply perm_skip. symmetry. apply Permutation_middle.
  - apply perm_skip. apply Permutation_middle.
Qed.
Lemma inversions_seq a n : inversions (seq a n) = 0.
Proof.
  revert a. induction n as [|n IH]; intros a; [reflexivity|]. cbn [seq inversions]. rewrite IH.
  assert (E : forall b m, a < b -> length (filter (fun y => y <? a) (seq b m)) = 0).
  { intros b m. revert b. induction m as [|m IHm]; intros b Hb; [reflexivity|]. cbn [seq filter].
    destruct (Nat.ltb_spec b a); [lia|]. apply IHm. lia. }
  rewrite E by lia. reflexivity.
Qed.

(** ** is_negative: it toggles once for each swap made by the walk *)
Section Sign.
Context (n : nat) (pi v : list nat).
Hypothesis Hpi : is_perm n pi.
Hypothesis Hv : n <= length v.
Hypothesis Nv : NoDup v.

Definition even_with (r : bool) (w : list nat) : Prop :=
  NoDup w /\ Nat.odd (inversions w) = xorb r (Nat.odd (inversions v)).
(** positions done when the outer loop is at i and seen is s *)
Definition done (i : nat) (s : list bool) (x : nat) : bool := (x <? i) || at_ s x.

Lemma sign_step i r s p j w : length s = n -> j <> i ->
  walking n pi v i (done (S i) s) w p j -> even_with r w ->
  exists s' j' w', put s j true = Some s' /\ get pi j = Some j' /\ length s' = n /\ unseen s' < unseen s /\ walking n pi v i (done (S i) s') w' j j' /\ even_with (negb r) w'.
Proof.
  intros Ls N W (Nw & Pw). assert (Fr := walk_fresh n pi v Hpi _ _ _ _ _ W N). destruct (walk_bound n pi v Hpi _ _ _ _ _ W) as (Hi & Hp & Hj).
  destruct (put_spec s j true) as (s' & Es & Lss & Gs); [lia|]. destruct (perm_get _ _ Hpi j Hj) as (j' & Ej' & Hj').
  assert (Lw : length w = length v) by apply W.
  destruct (vswap_spec w i j) as (w' & Ew & Lw' & Gw'); [lia|lia|].
  unfold done in Fr. apply orb_false_elim in Fr as [Fr1 Fr2].
  exists s', j', w'. split; [exact Es|]. split; [exact Ej'|]. split; [lia|]. split; [|split].
  - assert (F1 : get s j = Some false) by (rewrite at_get by lia; congruence). pose proof (unseen_put _ _ _ F1 Es). lia.
  - eapply walking_ext; [eapply walk_step; eauto|]. intros y. cbv beta. unfold done. rewrite (at_put _ _ _ _ Es).
    destruct (y =? j); [|reflexivity]. symmetry. apply orb_true_r.
  - destruct (swap_parity w w' i j) as [N1 N2]; auto; try lia. split; [exact N1|]. rewrite N2, Pw. destruct r, (Nat.odd (inversions v)); reflexivity.
Qed.
Lemma is_negative_parity : exists r w, is_negative pi = Some r /\ length w = length v /\ (forall i j, get pi i = Some j -> get w j = get v i) /\ (forall i, n <= i -> get w i = get v i) /\ Nat.odd (inversions w) = xorb r (Nat.odd (inversions v)).
Proof.
  unfold is_negative. assert (Lp := perm_len _ _ Hpi). rewrite Lp.
  match goal with |- exists r w, (match for_up n 0 ?b ?st with _ => _ end) = _ /\ _ =>
    destruct (for_up_rule (fun i '(r, s) => length s = n /\ exists w, moved n pi v (done i s) w /\ even_with r w) n 0 b st)
      as ([r s] & E & Ls & w & M & Ev) end.
  - split; [apply repeat_length|]. exists v. split; [|split; [exact Nv|destruct (Nat.odd (inversions v)); reflexivity]].
    assert (D : forall x, done 0 (repeat false n) x = false) by (intros x; unfold done; rewrite at_repeat; reflexivity).
    split; [reflexivity|].
    split; [intros; rewrite !D; reflexivity|]. split; [intros x y _ X; rewrite D in X; discriminate|].
    split; [reflexivity|]. intros x X. rewrite D in X. discriminate.
  - intros i [r s] Hi (Ls & w & M & Ev). rewrite at_get by lia. destruct (perm_get _ _ Hpi i) as (j & Ej & Hj); [lia|]. rewrite Ej.
    assert (DS : forall x, done (S i) s x = (x =? i) || done i s x).
    { intros x. unfold done. destruct (Nat.ltb_spec x (S i)), (Nat.ltb_spec x i), (Nat.eqb_spec x i); try lia; reflexivity. }
    assert (SK : at_ s i = true \/ j = i -> exists s', Some (r, s) = Some s' /\ (let '(r, s) := s' in length s = n /\ (exists w, moved n pi v (done (S i) s) w /\ even_with r w))).
    { intros C. exists (r, s). split; [reflexivity|]. split; [exact Ls|]. exists w. split; [|exact Ev].
      destruct (at_ s i) eqn:Si.
      - eapply moved_ext; [exact M|]. intros x. rewrite DS. destruct (Nat.eqb_spec x i) as [->|]; [|reflexivity].
        unfold done. rewrite Si. apply orb_true_r.
      - destruct C as [C|C]; [discriminate|]. subst j. eapply walk_end with (i := i) (p := i); [exact Hpi|].
        eapply walking_ext; [eapply walk_start; eauto; try lia|].
        + unfold done. rewrite Si, Nat.ltb_irrefl. reflexivity.
        + intros x. rewrite DS. reflexivity. }
    destruct (at_ s i) eqn:Si; cbn [negb andb]; [apply SK; auto|].
    destruct (Nat.eqb_spec j i) as [->|Nj]; cbn [negb]; [apply SK; auto|]. clear SK.
    assert (W : walking n pi v i (done (S i) s) w i j).
    { eapply walking_ext; [eapply walk_start; eauto; try lia|].
      - unfold done. rewrite Si, Nat.ltb_irrefl. reflexivity.
      - intros x. rewrite DS. reflexivity. }
    destruct (sign_step i r s i j w Ls Nj W Ev) as (s1 & j1 & w1 & Es & Ej1 & Ls1 & Hu & W1 & Ev1).
    rewrite Es, Ej1.
    match goal with |- exists s', (match while n ?c ?b ?st with _ => _ end) = _ /\ _ =>
      destruct (while_rule (fun '(r, s, j) => length s = n /\ exists w p, walking n pi v i (done (S i) s) w p j /\ even_with r w)
        (fun '(_, s, _) => unseen s) (fun '(_, _, j) => negb (j =? i)) n c b st) as ([[r2 s2] j2] & E2 & (Ls2 & w2 & p2 & W2 & Ev2) & C2) end.
    + split; [exact Ls1|]. exists w1, j. auto.
    + rewrite <- Ls1. apply unseen_le.
    + intros [[? ?] ?] _. reflexivity.
    + intros [[r3 s3] j3] (Ls3 & w3 & p3 & W3 & Ev3) C3. assert (N3 : j3 <> i) by (intros ->; rewrite Nat.eqb_refl in C3; discriminate).
      destruct (sign_step i r3 s3 p3 j3 w3 Ls3 N3 W3 Ev3) as (s4 & j4 & w4 & E4 & Ej4 & Ls4 & Hu4 & W4 & Ev4).
      rewrite E4, Ej4. exists (negb r3, s4, j4). split; [reflexivity|]. split; [|exact Hu4]. split; [exact Ls4|]. exists w4, j3. auto.
    + rewrite E2. assert (j2 = i) by (apply Nat.eqb_eq; destruct (j2 =? i); [reflexivity|discriminate]). subst j2.
      exists (r2, s2). split; [reflexivity|]. split; [exact Ls2|]. exists w2. split; [eapply walk_end; eauto|exact Ev2].
  - rewrite E. exists r, w. split; [reflexivity|]. destruct M as (L & C & M & U & B). split; [exact L|]. cbn [Nat.add] in *.
    split; [|split; [|apply Ev]].
    + intros i j Ej. apply M; [exact Ej|]. apply (perm_lt _ _ Hpi) in Ej. unfold done. destruct (Nat.ltb_spec i n); [reflexivity|lia].
    + intros i Hi. apply U. unfold done. destruct (Nat.ltb_spec i n); [lia|]. apply at_ge. lia.
Qed.
End Sign.

Lemma is_negative_ok n p : is_perm n p -> is_negative p = Some (Nat.odd (inversions p)).
Proof.
  intros H. assert (Lp := perm_len _ _ H). destruct (is_negative_parity n p p H) as (r & w & E & L & G & _ & P); [lia|apply H|].
  assert (w = seq 0 n).
  { apply vec_ext; [rewrite seq_length; lia|]. intros j Hj. destruct (perm_surj _ _ H j) as (i & Ei & Hi); [lia|].
    rewrite (G i j Ei), Ei, get_seq. destruct (Nat.ltb_spec j n); [reflexivity|lia]. }
  subst w. rewrite inversions_seq in P. rewrite E. f_equal. destruct r, (Nat.odd (inversions p)); try reflexivity; discriminate.
Qed.
Lemma sign_hom n a b : is_perm n a -> is_perm n b -> exists r s t, compose a b 0 = Some r /\ is_negative a = Some s /\ is_negative b = Some t /\ is_negative r = Some (xorb s t).
Proof.
  intros Ha Hb. destruct (compose_full n a b Ha Hb) as (r & Er & Pr & Gr). assert (Lr := perm_len _ _ Pr).
  destruct (is_negative_parity n b r Hb) as (t & w & E & L & G & _ & P); [lia|apply Pr|].
  assert (w = a).
  { apply vec_ext; [rewrite (perm_len _ _ Ha); lia|]. intros j Hj. destruct (perm_surj _ _ Hb j) as (i & Ei & Hi); [lia|].
    rewrite (G i j Ei). destruct (Gr i Hi) as (x & Ex & ->). congruence. }
  subst w. exists r, (Nat.odd (inversions a)), t. split; [exact Er|]. split; [eapply is_negative_ok; eauto|].
  split; [exact E|]. rewrite (is_negative_ok n r Pr), P. f_equal. destruct t, (Nat.odd (inversions r)); reflexivity.
Qed.
