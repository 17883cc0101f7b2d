(** Lemmas for the model of root systems: bytes, the order of roots, searching. *)

From Coq Require Import List Arith ZArith Bool Lia Sorted.
From Verif Require Import VecModel VecProofs RunModel RunProofs MatModel MatSpec MatRing MatLin SizeModel BitsetSpec DynBits DynkinModel RootModel RootSpec RootMath.
Import ListNotations.
Local Open Scope Z_scope.

Definition none : err -> Prop := fun _ => False.
Lemma gives_none {A} (m : res A) (P : A -> Prop) : gives m P none -> exists a, m = Ok a /\ P a.
Proof. destruct m as [a|e]; cbn; [intros H; exists a; split; [reflexivity|exact H]|intros []]. Qed.
Lemma vget_ok {A} (v : list A) i x : get v i = Some x -> vget v i = Ok x.
Proof. intros H. unfold vget. rewrite H. reflexivity. Qed.
Lemma vput_ok {A} (v : list A) i x : (i < length v)%nat -> exists w, vput v i x = Ok w /\ length w = length v /\
  forall j, get w j = if Nat.eqb j i then Some x else get v j.
Proof.
  intros H. destruct (put_spec v i x H) as (w & E & L & G). exists w. unfold vput. rewrite E. split; [reflexivity|]. split; [exact L|]. exact G.
Qed.

(** ** Bytes *)
Definition byte_range (x : Z) : Prop := -128 <= x <= 127.
Lemma s8_id x : byte_range x -> s8 x = x.
Proof. unfold byte_range, s8. intros H. rewrite Z.mod_small; lia. Qed.
Lemma s8_add x y : s8 (s8 x + y) = s8 (x + y).
Proof.
  unfold s8. f_equal. replace ((x + 128) mod 256 - 128 + y + 128) with ((x + 128) mod 256 + y) by lia.
  rewrite Zplus_mod_idemp_l. f_equal. lia.
Qed.
Fixpoint ldot (v w : list Z) : Z := match v, w with x :: v', y :: w' => x * y + ldot v' w' | _, _ => 0 end.
Lemma dot8_ok v : forall w r, length v = length w -> dot8 (s8 r) v w = Ok (s8 (r + ldot v w)).
Proof.
  induction v as [|x v IH]; intros [|y w] r L; try discriminate; cbn [dot8 ldot].
  - rewrite Z.add_0_r. reflexivity.
  - rewrite s8_add, IH by (cbn in L; lia). do 2 f_equal. lia.
Qed.
Lemma ldot_zsum v : forall w, length v = length w -> ldot v w = zsum (length v) (fun j => co v j * co w j).
Proof.
  induction v as [|x v IH]; intros [|y w] L; try discriminate; [reflexivity|]. cbn [ldot length] in *.
  rewrite IH by lia. change (S (length v)) with (1 + length v)%nat. rewrite zsum_split. cbn [zsum fsum]. f_equal.
Qed.

(** ** Equality and order *)
Lemma veqb_ok v : forall w, veqb v w = true <-> v = w.
Proof.
  induction v as [|x v IH]; intros [|y w]; cbn; split; try discriminate; try reflexivity.
  - intros H. apply andb_prop in H. destruct H as [H1 H2]. apply Z.eqb_eq in H1. apply IH in H2. congruence.
  - intros E. inversion E; subst. rewrite Z.eqb_refl. apply IH. reflexivity.
Qed.
Lemma lex_irrefl v : lex_lt v v = false.
Proof. induction v as [|x v IH]; [reflexivity|]. cbn. rewrite Z.eqb_refl. exact IH. Qed.
Lemma lex_trans u : forall v w, lex_lt u v = true -> lex_lt v w = true -> lex_lt u w = true.
Proof.
  induction u as [|x u IH]; intros [|y v] [|z w]; cbn; try discriminate. 
  destruct (Z.eqb_spec x y) as [->|N1]; destruct (Z.eqb_spec y z) as [->|N2]; rewrite ?Z.ltb_lt.
  - rewrite ?Z.eqb_refl. apply IH.
  - intros _ H. rewrite ?(proj2 (Z.eqb_neq _ _) N2). first [exact H|apply Z.ltb_lt; exact H].
  - intros H _. rewrite ?(proj2 (Z.eqb_neq _ _) N1). first [exact H|apply Z.ltb_lt; exact H].
  - intros H1 H2. rewrite (proj2 (Z.eqb_neq x z)) by lia. apply Z.ltb_lt. lia.
Qed.
Lemma lex_total u : forall v, length u = length v -> lex_lt u v = false -> lex_lt v u = false -> u = v.
Proof.
  induction u as [|x u IH]; intros [|y v] L; cbn; try discriminate; [reflexivity|].
  rewrite (Z.eqb_sym y x). destruct (Z.eqb_spec x y) as [->|N]; [intros H1 H2; f_equal; apply IH; [cbn in L; lia|assumption..]|].
  rewrite !Z.ltb_ge. lia.
Qed.
Lemma root_lt_irrefl v : root_lt v v = false. Proof. apply lex_irrefl. Qed.
Lemma root_lt_trans u v w : root_lt u v = true -> root_lt v w = true -> root_lt u w = true. Proof. apply lex_trans. Qed.
Lemma root_lt_total u v : length u = length v -> root_lt u v = false -> root_lt v u = false -> u = v.
Proof.
  intros L H1 H2. rewrite <- (rev_involutive u), <- (rev_involutive v). f_equal. apply lex_total; [rewrite !rev_length; exact L|exact H1|exact H2].
Qed.
Definition rlt (u v : list Z) : Prop := root_lt u v = true.
Lemma rs_insert_in n v l : length v = n -> (forall x, In x l -> length x = n) -> forall x, In x (rs_insert v l) <-> x = v \/ In x l.
Proof.
  intros Lv. induction l as [|y l IH]; intros Ll x; cbn [rs_insert]; [cbn; intuition congruence|].
  destruct (root_lt v y) eqn:E1; [cbn; intuition congruence|]. destruct (root_lt y v) eqn:E2.
  - cbn [In]. rewrite IH by (intros; apply Ll; right; assumption). intuition congruence.
  - assert (v = y) by (apply root_lt_total; [rewrite Lv; symmetry; apply Ll; left; reflexivity|assumption..]). subst y. cbn. intuition congruence.
Qed.
Lemma rs_insert_sorted n v l : length v = n -> (forall x, In x l -> length x = n) -> StronglySorted rlt l -> StronglySorted rlt (rs_insert v l).
Proof.
  intros Lv. induction l as [|y l IH]; intros Ll S; cbn [rs_insert]; [repeat constructor|].
  inversion S as [|? ? S1 S2]; subst. destruct (root_lt v y) eqn:E1.
  - constructor; [exact S|]. constructor; [exact E1|]. rewrite Forall_forall in *. intros z I. apply (root_lt_trans v y z E1). apply S2; exact I.
  - destruct (root_lt y v) eqn:E2; [|exact S]. constructor; [apply IH; [intros; apply Ll; right; assumption|exact S1]|].
    rewrite Forall_forall in *. intros z I. apply (rs_insert_in (length v) v l eq_refl) in I; [|intros; apply Ll; right; assumption].
    destruct I as [->|I]; [exact E2|apply S2; exact I].
Qed.

(** ** Searching *)
Lemma look_ok proj ri v : forall k from, (from + k <= length ri)%nat ->
  exists o, look proj k from ri v = Ok o /\
    match o with
    | Some j => (from <= j < from + k)%nat /\ exists x, get ri j = Some x /\ proj x = v
    | None => forall j x, (from <= j < from + k)%nat -> get ri j = Some x -> proj x <> v
    end.
Proof.
  induction k as [|k IH]; intros from L; cbn [look].
  - exists None. split; [reflexivity|]. intros; lia.
  - destruct (get_some ri from ltac:(lia)) as [x G]. rewrite (vget_ok _ _ _ G). cbn [bind]. destruct (veqb (proj x) v) eqn:E.
    + exists (Some from). split; [reflexivity|]. split; [lia|]. exists x. split; [exact G|apply veqb_ok; exact E].
    + destruct (IH (S from) ltac:(lia)) as (o & Eo & H). exists o. split; [exact Eo|]. destruct o as [j|].
      * destruct H as [H1 H2]. split; [lia|exact H2].
      * intros j y Hj Gj. destruct (Nat.eq_dec j from) as [->|N]; [|apply (H j y); [lia|exact Gj]].
        assert (y = x) by congruence. subst y. intros Q. apply veqb_ok in Q. congruence.
Qed.
Lemma get_app {A} (l : list A) x k : get (l ++ [x]) k = if Nat.eqb k (length l) then Some x else get l k.
Proof.
  unfold get. destruct (Nat.eqb_spec k (length l)) as [->|N].
  - rewrite nth_error_app2, Nat.sub_diag by lia. reflexivity.
  - destruct (le_lt_dec (length l) k) as [L|L].
    + rewrite (proj2 (nth_error_None _ _)), (proj2 (nth_error_None _ _)) by (rewrite ?app_length; cbn; lia). reflexivity.
    + rewrite nth_error_app1 by exact L. reflexivity.
Qed.
Lemma get_map {A B} (f : A -> B) l k : get (map f l) k = match get l k with Some x => Some (f x) | None => None end.
Proof. unfold get. rewrite nth_error_map. destruct (nth_error l k); reflexivity. Qed.
Lemma get_map_some {A B} (f : A -> B) l k x : get l k = Some x -> get (map f l) k = Some (f x).
Proof. intros H. rewrite get_map, H. reflexivity. Qed.
Lemma get_repeat {A} (x : A) n k : (k < n)%nat -> get (repeat x n) k = Some x.
Proof. intros H. unfold get. rewrite (nth_error_nth' _ x) by (rewrite repeat_length; exact H). rewrite nth_repeat. reflexivity. Qed.
Lemma get_In {A} (l : list A) k x : get l k = Some x -> In x l. Proof. apply nth_error_In. Qed.
Lemma In_get {A} (l : list A) x : In x l -> exists k, get l k = Some x. Proof. apply In_nth_error. Qed.
Lemma get_co v i : (i < length v)%nat -> get v i = Some (co v i).
Proof. intros H. apply get_nth. exact H. Qed.
(** the model's way of changing a coefficient *)
Lemma vput_bump v i z : (i < length v)%nat -> vput v i (co v i + z) = Ok (bump v i z).
Proof.
  intros H. destruct (vput_ok v i (co v i + z) H) as (w & -> & L & G). f_equal. apply vec_ext; [rewrite bump_length; exact L|].
  intros k Hk. rewrite co_bump by exact H. specialize (G k). rewrite get_co in G by exact Hk.
  destruct (Nat.eqb k i) eqn:E; [apply Nat.eqb_eq in E; subst k; congruence|]. rewrite get_co in G by lia. congruence.
Qed.
Lemma unit_basis n i : (i < n)%nat -> unit_vec n i = basis n i.
Proof.
  intros H. unfold unit_vec. apply vec_ext; [rewrite basis_length, app_length, repeat_length; cbn [length]; rewrite repeat_length; lia|].
  intros k Hk. rewrite co_basis by exact H. unfold co. destruct (lt_eq_lt_dec k i) as [ [L| ->] |L].
  - rewrite app_nth1, nth_repeat by (rewrite repeat_length; exact L). rewrite (proj2 (Nat.eqb_neq k i)) by lia. reflexivity.
  - rewrite app_nth2, repeat_length, Nat.sub_diag, Nat.eqb_refl by (rewrite repeat_length; lia). reflexivity.
  - rewrite app_nth2, repeat_length by (rewrite repeat_length; lia). rewrite (proj2 (Nat.eqb_neq k i)) by lia.
    destruct (k - i)%nat as [|q] eqn:E; [lia|]. cbn [nth]. apply nth_repeat.
Qed.
