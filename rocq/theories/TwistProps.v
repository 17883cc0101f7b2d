(** Properties C77-C82: roots and descents, twisted Weyl groups. *)

From Coq Require Import List Arith ZArith Lia Bool Ascii Permutation Sorted.
From Verif Require Import VecModel VecProofs RunModel RunProofs MatSpec SizeModel SizeSpec WeylModel WeylSpec TwistSpec WeylTable WeylCheck WeylExchange WeylGroup WeylOps WeylMore WeylMake WeylExt WeylOrder WeylClass WeylSign TwistWords TwistOrbit TwistProofs TwistMore WeylProps TwistModel.
Import ListNotations.
Open Scope nat_scope.

(** *** an example: type A4 on generators 0, 1, 2, 3, reversed by the twist; A1 on generators 4 and 5,
    exchanged; A1 on generator 6 *)
Definition tw_comps : list component := [mk_comp "A" 0 [0; 1; 2; 3]; mk_comp "A" 4 [4]; mk_comp "A" 5 [5]; mk_comp "A" 6 [6]].
Definition tw_A (i j : nat) : Z := if i =? j then 2%Z else if (i <? 4) && (j <? 4) && ((i =? S j) || (j =? S i)) then (-1)%Z else 0%Z.
Definition tw_W : weyl_group := match make_weyl 7 tw_comps with Ok W => W | Fail _ => mk_weyl [] [] [] [] [] end.
Definition tw_f : list nat := [3; 2; 1; 0; 5; 4; 6].
Lemma tw_describes : describes 7 tw_A tw_comps.
Proof.
  split; [vm_compute; auto|]. split.
  - apply NoDup_Permutation_bis; [|reflexivity|].
    + cbn. repeat (constructor; [cbn; lia|]). constructor.
    + intros x I. cbn in I. apply in_seq. lia.
  - split.
    + intros c I. cbn in I. destruct I as [<-|[<-|[<-|[<-|[]]]]]; (split; [cbn; lia|]); intros i j p q Hi Hj;
      repeat (destruct i as [|i]; [cbn in Hi; injection Hi as <-; repeat (destruct j as [|j]; [cbn in Hj; injection Hj as <-; vm_compute; reflexivity|]); cbn in Hj; try discriminate; destruct j; discriminate|]);
      cbn in Hi; try discriminate; destruct i; discriminate.
    + intros c d p q I J N P Q. cbn in I, J. destruct I as [<-|[<-|[<-|[<-|[]]]]], J as [<-|[<-|[<-|[<-|[]]]]]; cbn in N; try lia; cbn in P, Q; intuition (subst; reflexivity).
Qed.
Lemma tw_make : make_weyl 7 tw_comps = Ok tw_W.
Proof. vm_compute. reflexivity. Qed.
Lemma tw_weyl : weyl_of 7 tw_A tw_W.
Proof. exists tw_comps. split; [exact tw_describes|]. split; [lia|exact tw_make]. Qed.
Lemma tw_twist : twist_of 7 tw_A tw_f.
Proof.
  split; [reflexivity|]. split.
  - intros s Hs. do 7 (destruct s as [|s]; [vm_compute; auto 10 with arith|]). lia.
  - intros s t Hs Ht. do 7 (destruct s as [|s]; [do 7 (destruct t as [|t]; [reflexivity|]); lia|]). lia.
Qed.

Section Group.
Variables (n : nat) (A : nat -> nat -> Z) (W : weyl_group).
Hypothesis HW : weyl_of n A W.
Lemma is_W : exists comps, describes n A comps /\ n <= rank_max /\ make_weyl n comps = Ok W.
Proof. exact HW. Qed.
Ltac start := destruct is_W as (comps & D & RM & MK).
Ltac intoX E := match goal with D : describes _ _ ?comps, RM : n <= rank_max, MK : make_weyl _ ?comps = Ok _ |- _ => apply (element_X n A comps W D RM MK) in E; [|assumption] end.
Ltac take M x F R := apply gives_sure in M; destruct M as (x & F & R).

(** *** C77: descents and roots *)
Theorem C77_descent_root w u s : over n u -> element W u = Ok w -> s < n ->
  exists b, has_descent W s w = Ok b /\
    (b = true -> negative n (root_word n A u (simple_root s))) /\ (b = false -> positive n (root_word n A u (simple_root s))).
Proof.
  intros O E Hs. start. intoX E. pose proof (hd_X n A comps W D RM MK w u s E Hs) as M. take M b F P. exists b. split; [auto|].
  pose proof (Cart n A comps W D RM MK) as CL. pose proof (ELLx n A comps W D RM MK) as ELL. split; intros ->.
  - apply (sign_negative n A CL _ ELL u s Hs O). now apply P.
  - apply (sign_positive n A CL _ ELL u s Hs O). destruct (ell_cons n (coxeter A) _ ELL s u Hs O) as [Q|Q]; [lia|]. assert (false = true) by (apply P; lia). discriminate.
Qed.
(** the two signs exclude each other, and every root of this form has one of them *)
Theorem C77_root_sign u s : over n u -> s < n ->
  (positive n (root_word n A u (simple_root s)) \/ negative n (root_word n A u (simple_root s))) /\
  ~ (positive n (root_word n A u (simple_root s)) /\ negative n (root_word n A u (simple_root s))).
Proof.
  intros O Hs. start. pose proof (Cart n A comps W D RM MK) as CL. pose proof (ELLx n A comps W D RM MK) as ELL. split; [|intros [P N]; apply (not_both n _ P N)].
  destruct (ell_cons n (coxeter A) _ ELL s u Hs O) as [Q|Q]; [left; apply (sign_positive n A CL _ ELL u s Hs O); lia|right; apply (sign_negative n A CL _ ELL u s Hs O); lia].
Qed.
(** words of the same element act in the same way on roots *)
Theorem C77_root_action u v c j : same n (coxeter A) u v -> over n u -> j < n -> root_word n A u c j = root_word n A v c j.
Proof. intros E O Hj. start. apply (rw_same n A (Cart n A comps W D RM MK) u v E O c j Hj). Qed.

(** *** twists *)
Variable f : list nat.
Hypothesis TW : twist_of n A f.
Notation fs s := (nth s f 0).
Notation "u ~ v" := (same n (coxeter A) u v) (at level 70).

(** *** C78: the twist, the dual twist, twisted conjugation *)
Theorem C78_twisted w u : over n u -> element W u = Ok w -> twisted W f w = element W (relabel f u).
Proof.
  intros O E. start. intoX E. pose proof (X_valid n A comps W w u E) as V. pose proof TW as (Lf & _).
  pose proof (translation_X n A comps W D RM MK w f V ltac:(lia) (f_over n A RM f TW)) as M. take M x F R. unfold twisted. rewrite F. symmetry. apply (element_is n A comps W D RM MK).
  apply (X_same n A comps W D RM MK _ _ _ R). apply (d_same n A f TW). apply (X_eq n A comps W D RM MK w); [now apply (X_of_valid n A comps W D RM MK)|auto].
Qed.
Theorem C78_dual_twist w0 u0 : longest W = Ok w0 -> over n u0 -> element W u0 = Ok w0 ->
  exists g, dual_twist W f = Ok g /\ twist_of n A g /\ (forall s, s < n -> dual_twisted_gen W f s = Ok (nth s g 0)) /\
    (forall u, over n u -> relabel g u ~ u0 ++ relabel f u ++ u0) /\
    (forall u w, over n u -> element W u = Ok w -> dual_twisted W f w = element W (relabel g u)) /\
    forall u, over n u -> (twisted_involution n A f u <-> twisted_involution n A g (u ++ u0)).
Proof.
  intros L O E. start. intoX E. destruct (longest_X n A comps W D RM MK) as (w & E' & T). rewrite E' in L. injection L as ->.
  destruct (dual_twist_X n A comps W D RM MK f TW w0 u0 T E) as (g & Q1 & Q2 & Q3). exists g. split; [auto|]. split; [auto|]. split; [|split; [|split]].
  - intros s Hs. destruct (dual_gen_X n A comps W D RM MK f TW w0 u0 T E s Hs) as (t & Ht & Et & ->). f_equal. apply (one_letter n A comps W D RM MK); auto; [apply Q2; auto|].
    apply (same_trans _ _ _ (u0 ++ [fs s] ++ u0)); [now apply same_sym|now apply Q3].
  - apply (dual_word n A comps W D RM MK f w0 u0 T E g Q3).
  - intros u x Ou Ex. unfold dual_twisted. rewrite Q1. cbn [bind]. intoX Ex. pose proof (X_valid n A comps W x u Ex) as V. pose proof Q2 as (Lg & _).
    pose proof (translation_X n A comps W D RM MK x g V ltac:(lia) (f_over n A RM g Q2)) as M. take M y F R. rewrite F. symmetry. apply (element_is n A comps W D RM MK).
    apply (X_same n A comps W D RM MK _ _ _ R). apply (d_same n A g Q2). apply (X_eq n A comps W D RM MK x); [now apply (X_of_valid n A comps W D RM MK)|auto].
  - apply (dual_TI n A comps W D RM MK f TW w0 u0 T E g Q3).
Qed.
Definition changes (c : Z) (v u : list nat) : Prop := forall a b, shortest n (coxeter A) v a -> shortest n (coxeter A) u b -> c = (Z.of_nat a - Z.of_nat b)%Z.
Lemma changes_X comps w w' u v : describes n A comps -> n <= rank_max -> make_weyl n comps = Ok W -> X n A comps W w u -> X n A comps W w' v ->
  forall c, c = (Z.of_nat (ellx n comps W v) - Z.of_nat (ellx n comps W u))%Z -> changes c v u.
Proof.
  intros D RM MK H H' c -> a b Ka Kb. rewrite (shortest_unique n _ _ _ _ Ka (ELLx n A comps W D RM MK v (proj1 H'))), (shortest_unique n _ _ _ _ Kb (ELLx n A comps W D RM MK u (proj1 H))). auto.
Qed.
Theorem C78_twisted_conjugate w u s : over n u -> element W u = Ok w -> s < n ->
  exists w' c, twisted_conjugate W f w s = Ok (w', c) /\ element W (s :: u ++ [fs s]) = Ok w' /\ changes c (s :: u ++ [fs s]) u.
Proof.
  intros O E Hs. start. intoX E. pose proof (tc_X n A comps W D RM MK f TW w u s E Hs) as M. take M p F R. destruct p as [w' c]. destruct R as [R Q]. exists w', c.
  split; [auto|]. split; [now apply (element_is n A comps W D RM MK)|]. now apply (changes_X comps w w').
Qed.
Lemma conj_letters comps x : describes n A comps -> n <= rank_max -> make_weyl n comps = Ok W -> over n x -> forall w u, X n A comps W w u ->
  gives (each_comp x (add_conjugate W f) (w, 0%Z)) (fun '(w', c) => X n A comps W w' (rev x ++ u ++ relabel f x) /\ c = (Z.of_nat (ellx n comps W (rev x ++ u ++ relabel f x)) - Z.of_nat (ellx n comps W u))%Z) sure.
Proof.
  intros D RM MK O w u H. unfold each_comp.
  eapply gives_imp; [|apply (gives_each (fun y '(w', c) => over n y -> X n A comps W w' (rev y ++ u ++ relabel f y) /\ c = (Z.of_nat (ellx n comps W (rev y ++ u ++ relabel f y)) - Z.of_nat (ellx n comps W u))%Z))].
  - intros [w' c] P. now apply P.
  - intros _. cbn. rewrite app_nil_r. split; [auto|lia].
  - intros y s z [w' c] Ex P. assert (Oy : over n y /\ s < n). { subst x. apply over_app in O. destruct O as [O1 O2]. apply over_cons in O2. tauto. }
    destruct Oy as [Oy Hs]. destruct (P Oy) as [H1 ->]. unfold add_conjugate. eapply gives_run; [apply (tc_X n A comps W D RM MK f TW w' _ s H1 Hs)|]. intros [w2 c2] [H2 ->]. cbn [gives]. intros _.
    assert (Q : rev (y ++ [s]) ++ u ++ relabel f (y ++ [s]) = s :: (rev y ++ u ++ relabel f y) ++ [fs s]) by (rewrite rev_app_distr; unfold relabel; rewrite map_app; cbn; now rewrite <- !app_assoc).
    rewrite Q. split; [auto|lia].
Qed.
(** conjugation by a word, by its inverse, by an element *)
Theorem C78_conjugate_word w u x : over n u -> over n x -> element W u = Ok w ->
  exists w' c, twisted_conjugate_word W f x w = Ok (w', c) /\ element W (x ++ u ++ rev (relabel f x)) = Ok w' /\ changes c (x ++ u ++ rev (relabel f x)) u.
Proof.
  intros O Ox E. start. intoX E. pose proof (conj_letters comps (rev x) D RM MK (over_rev n x Ox) w u E) as M. take M p F R. destruct p as [w' c]. destruct R as [R Q]. exists w', c.
  split; [exact F|]. assert (Z : rev (rev x) ++ u ++ relabel f (rev x) = x ++ u ++ rev (relabel f x)) by (rewrite rev_involutive; unfold relabel; now rewrite map_rev). rewrite Z in *.
  split; [now apply (element_is n A comps W D RM MK)|]. now apply (changes_X comps w w').
Qed.
Theorem C78_inverse_conjugate w u x : over n u -> over n x -> element W u = Ok w ->
  exists w' c, inverse_twisted_conjugate W f w x = Ok (w', c) /\ element W (rev x ++ u ++ relabel f x) = Ok w' /\ changes c (rev x ++ u ++ relabel f x) u.
Proof.
  intros O Ox E. start. intoX E. pose proof (conj_letters comps x D RM MK Ox w u E) as M. take M p F R. destruct p as [w' c]. destruct R as [R Q]. exists w', c.
  split; [exact F|]. split; [now apply (element_is n A comps W D RM MK)|]. now apply (changes_X comps w w').
Qed.
Theorem C78_conjugate_by tw w u x : over n u -> over n x -> element W u = Ok tw -> element W x = Ok w ->
  twisted_conjugate_by W f tw w = element W (x ++ u ++ rev (relabel f x)).
Proof.
  intros O Ox E Ex. start. intoX E. intoX Ex. unfold twisted_conjugate_by. pose proof (mult_X n A comps W D RM MK w tw x u Ex E) as M. take M y F R. rewrite F. cbn [bind].
  pose proof (X_valid n A comps W w x Ex) as V. pose proof TW as (Lf & _). pose proof (reverse_translation_X n A comps W D RM MK w f V ltac:(lia) (f_over n A RM f TW)) as M. take M r F' R'. rewrite F'. cbn [bind].
  assert (RR : X n A comps W r (rev (relabel f x))).
  { apply (X_same n A comps W D RM MK _ _ _ R'). apply (same_rev n (coxeter A) _ _ (cox_symm A)). apply (d_same n A f TW). apply (X_eq n A comps W D RM MK w); [now apply (X_of_valid n A comps W D RM MK)|auto]. }
  pose proof (mult_X n A comps W D RM MK y r _ _ R RR) as M. take M z F2 R2. rewrite F2. symmetry. apply (element_is n A comps W D RM MK). now rewrite <- app_assoc in R2.
Qed.
(** twisted conjugation keeps twisted involutions *)
Theorem C78_conjugate_involution u x : over n x -> twisted_involution n A f u -> twisted_involution n A f (x ++ u ++ rev (relabel f x)).
Proof.
  intros Ox T. induction x as [|s x IH]; [cbn; now rewrite app_nil_r|]. apply over_cons in Ox. destruct Ox as [Hs Ox].
  replace ((s :: x) ++ u ++ rev (relabel f (s :: x))) with (s :: (x ++ u ++ rev (relabel f x)) ++ [fs s]) by (cbn; now rewrite <- !app_assoc).
  apply (TI_conj n A f TW s _ Hs). now apply IH.
Qed.

(** *** C79: the test of twisted commutation *)
Theorem C79_twisted_commutation w u s : twisted_involution n A f u -> element W u = Ok w -> s < n ->
  exists b, has_twisted_commutation W f s w = Ok b /\ (b = true <-> s :: u ++ [fs s] ~ u).
Proof.
  intros T E Hs. pose proof T as [O _]. start. intoX E. pose proof (htc_TI n A comps W D RM MK f TW w u s E T Hs) as M. take M b F P. exists b. auto.
Qed.
(** the product by [s] is a twisted involution just in this case; otherwise conjugation changes the
    length by 2 *)
Theorem C79_alternative u s k : twisted_involution n A f u -> s < n -> shortest n (coxeter A) u k ->
  (twisted_involution n A f (s :: u) <-> s :: u ++ [fs s] ~ u) /\ twisted_involution n A f (s :: u ++ [fs s]) /\
  (~ s :: u ++ [fs s] ~ u -> forall a, shortest n (coxeter A) (s :: u) a -> shortest n (coxeter A) (s :: u ++ [fs s]) (if a <? k then k - 2 else k + 2)).
Proof.
  intros T Hs K. pose proof T as [O _]. start. split; [split|split].
  - intros T'. apply (TI_pair n A f s u Hs T T').
  - intros C. now apply (TI_comm n A f TW).
  - now apply (TI_conj n A f TW).
  - intros NC a Ka. pose proof (EQX n A comps W D RM MK) as EQX. pose proof (ELLx n A comps W D RM MK) as ELL.
    assert (O1 : over n (s :: u)) by now apply over_cons. pose proof (conj_over n A f TW s u Hs O) as O2.
    rewrite (shortest_unique n _ _ _ _ K (ELL u O)), (shortest_unique n _ _ _ _ Ka (ELL _ O1)).
    destruct (conj_ell n A f TW _ EQX _ ELL s u Hs T NC) as [P1 P2]. destruct (Nat.ltb_spec (ellx n comps W (s :: u)) (ellx n comps W u)) as [Q|Q].
    + specialize (P1 Q). replace (ellx n comps W u - 2) with (ellx n comps W (s :: u ++ [fs s])) by lia. now apply ELL.
    + destruct (ell_cons n (coxeter A) _ ELL s u Hs O) as [Q'|Q']; [|lia]. specialize (P2 ltac:(lia)). replace (ellx n comps W u + 2) with (ellx n comps W (s :: u ++ [fs s])) by lia. now apply ELL.
Qed.

(** *** C80: expressions for twisted involutions *)
Definition expresses (zs : list Z) (u : list nat) : Prop := stepwise n A f zs /\ rebuild f zs ~ u.
Lemma fuel_bound comps w u fuel : describes n A comps -> n <= rank_max -> make_weyl n comps = Ok W -> X n A comps W w u -> length u <= fuel -> length (ev n (off comps) W w) <= fuel.
Proof. intros D RM MK H HF. rewrite (ell_X n A comps W D RM MK w u H). pose proof (ell_le n (coxeter A) _ (ELLx n A comps W D RM MK) u (proj1 H)). lia. Qed.
Theorem C80_involution_expr w u fuel : twisted_involution n A f u -> element W u = Ok w -> length u <= fuel ->
  exists zs, involution_expr W f fuel w = Ok zs /\ expresses zs u /\ involution_length W f fuel w = Ok (length zs).
Proof.
  intros T E HF. pose proof T as [O _]. start. intoX E. pose proof (fuel_bound comps w u fuel D RM MK E HF) as HF'.
  pose proof (involution_expr_X n A comps W D RM MK f TW w u fuel E T HF') as M. take M zs F P. exists zs. split; [auto|]. destruct P as (P1 & P2 & P3 & _). split; [split; auto|].
  pose proof (length_loop n A comps W D RM MK f TW w u fuel E T HF') as M. take M k F' Q. rewrite F'. f_equal. rewrite P3 in Q. lia.
Qed.
Theorem C80_length w u fuel k : twisted_involution n A f u -> element W u = Ok w -> length u <= fuel -> shortest n (coxeter A) u k ->
  exists l, involution_length W f fuel w = Ok l /\ (4 * Z.of_nat l = 2 * Z.of_nat k + trace n (twisted_action A f []) - trace n (twisted_action A f u))%Z.
Proof.
  intros T E HF K. pose proof T as [O _]. start. intoX E. pose proof (fuel_bound comps w u fuel D RM MK E HF) as HF'.
  pose proof (length_loop n A comps W D RM MK f TW w u fuel E T HF') as M. take M l F Q. exists l. split; [auto|]. rewrite (potential_nil n A f _ (ELLx n A comps W D RM MK)) in Q. unfold potential in Q.
  rewrite (shortest_unique n _ _ _ _ K (ELLx n A comps W D RM MK u O)). lia.
Qed.
Theorem C80_minimal w u fuel l zs : twisted_involution n A f u -> element W u = Ok w -> length u <= fuel -> involution_length W f fuel w = Ok l -> expresses zs u -> l <= length zs.
Proof.
  intros T E HF EL [SW RB]. pose proof T as [O _]. start. intoX E. pose proof (fuel_bound comps w u fuel D RM MK E HF) as HF'.
  pose proof (length_loop n A comps W D RM MK f TW w u fuel E T HF') as M. take M k F Q. rewrite EL in F. injection F as <-.
  pose proof (stepwise_bound n A comps W D RM MK f TW zs SW) as B. rewrite (potential_same n A f (Cart n A comps W D RM MK) _ (ELLx n A comps W D RM MK) _ _ RB) in B; [lia|].
  apply (SW [] zs eq_refl).
Qed.
Theorem C80_canonical w u fuel l : twisted_involution n A f u -> element W u = Ok w -> length u <= fuel -> involution_length W f fuel w = Ok l ->
  exists zs, canonical_involution_expr W f fuel w = Ok zs /\ length zs = l /\ expresses zs u /\
    forall zs', expresses zs' u -> length zs' = l -> zs' = zs \/ lex_before (map letter_gen zs) (map letter_gen zs').
Proof.
  intros T E HF EL. pose proof T as [O _]. start. intoX E. pose proof (fuel_bound comps w u fuel D RM MK E HF) as HF'.
  pose proof (length_loop n A comps W D RM MK f TW w u fuel E T HF') as M. take M k F Q. rewrite EL in F. injection F as <-.
  pose proof (canonical_X n A comps W D RM MK f TW w u fuel E T HF') as M. take M zs F P. exists zs. split; [auto|]. destruct P as (P1 & P2 & P3 & P4). split; [lia|]. split; [split; auto|].
  intros zs' [SW RB] LE. apply (canonical_least n A comps W D RM MK f TW zs zs' u); auto. lia.
Qed.

(** *** C81: orbits of generators; expressions for elements fixed by the twist *)
Theorem C81_orbits : exists l, twist_orbits W f = Ok l /\ map e_s0 l = filter (fun s => s <=? fs s) (seq 0 n) /\
  forall g, In g l -> e_s0 g < n /\ match e_type g with
    | one => fs (e_s0 g) = e_s0 g
    | two => fs (e_s0 g) = e_s1 g /\ e_s0 g < e_s1 g /\ [e_s0 g; e_s1 g] ~ [e_s1 g; e_s0 g]
    | three => fs (e_s0 g) = e_s1 g /\ e_s0 g < e_s1 g /\ coxeter A (e_s0 g) (e_s1 g) = 3
    end.
Proof.
  start. pose proof (orbits_X n A comps W D RM MK f TW) as M. take M l F P. destruct P as [P1 P2]. exists l. split; [auto|]. split; [auto|]. intros g I. rewrite Forall_forall in P1. destruct (P1 g I) as [Q1 Q2]. split; [auto|].
  destruct (e_type g); auto. destruct Q2 as (Q2 & Q3 & Q4). split; [auto|]. split; [auto|]. apply (cox_two n A comps W D RM MK); auto; [|lia]. rewrite <- Q2. now apply (f_lt n A f TW).
Qed.
(** signs: a letter is complemented when the orbit is not of type three and the length decreases by
    twice the length of the longest element of the orbit *)
Theorem C81_extended_expr w u fuel : twisted_involution n A f u -> relabel f u ~ u -> element W u = Ok w -> length u <= fuel ->
  exists l zs, twist_orbits W f = Ok l /\ extended_involution_expr W f fuel w = Ok zs /\ orbit_expression n A f (map e_s0 l) zs u.
Proof.
  intros T FU E HF. pose proof T as [O _]. start. intoX E. pose proof (fuel_bound comps w u fuel D RM MK E HF) as HF'.
  pose proof (orbits_X n A comps W D RM MK f TW) as M. take M l F P. destruct P as [P1 P2].
  pose proof (length_loop n A comps W D RM MK f TW w u fuel E T HF') as M. take M k F' Q.
  pose proof (ext_loop_X n A comps W D RM MK f TW l P1 P2 w u fuel E (conj T FU) HF') as M. take M zs F2 R. exists l, zs. split; [auto|]. split; [|auto].
  unfold extended_involution_expr. rewrite F. cbn [bind]. rewrite F'. cbn [bind]. exact F2.
Qed.
End Group.

(** *** C82: twisted conjugacy classes *)
Theorem C82_twisted_class n A comps W f w u fuel : describes n A comps -> n <= 32 -> make_weyl n comps = Ok W -> twist_of n A f -> over n u -> element W u = Ok w ->
  (weyl_order (type_of comps) <= Z.of_nat fuel)%Z ->
  exists l, twisted_class W f fuel w = Ok l /\ StronglySorted (fun a b => elt_lt a b = true) l /\ NoDup l /\
    forall x, In x l <-> exists g, over n g /\ element W (g ++ u ++ rev (relabel f g)) = Ok x.
Proof.
  intros D RM MK TW O E HF. apply (element_X n A comps W D RM MK) in E; [|auto]. pose proof (X_valid n A comps W w u E) as V.
  set (step := fun v s => run (v, _) <- twisted_conjugate W f v s; Ok v).
  set (c := fun s v => match step v s with Ok x => x | Fail _ => [] end).
  assert (CX : forall v r s, X n A comps W v r -> s < n -> step v s = Ok (c s v) /\ X n A comps W (c s v) (s :: r ++ [nth s f 0])).
  { intros v r s R Hs. pose proof (tc_X n A comps W D RM MK f TW v r s R Hs) as M. apply gives_sure in M. destruct M as ([x z] & F & RX & _). unfold c, step. rewrite F. cbn [bind]. auto. }
  assert (ST : forall v s, valid n W v -> s < n -> step v s = Ok (c s v)) by (intros v s Vv Hs; apply (CX v _ s (X_of_valid n A comps W D RM MK v Vv) Hs)).
  assert (CV : forall s v, s < n -> valid n W v -> valid n W (c s v)).
  { intros s v Hs Vv. destruct (CX v _ s (X_of_valid n A comps W D RM MK v Vv) Hs) as [_ R]. exact (X_valid n A comps W _ _ R). }
  assert (CC : forall s v, s < n -> valid n W v -> c s (c s v) = v).
  { intros s v Hs Vv. pose proof (X_of_valid n A comps W D RM MK v Vv) as R. destruct (CX v _ s R Hs) as [_ R1]. destruct (CX _ _ s R1 Hs) as [_ R2].
    apply (X_unique n A comps W D RM MK _ _ _ R2). apply (X_same n A comps W D RM MK _ _ _ R). set (r := map _ _) in *. apply same_sym. set (t := nth s f 0) in *.
    change (s :: (s :: r ++ [t]) ++ [t]) with ([s; s] ++ (r ++ [t]) ++ [t]). rewrite <- (app_assoc r). apply (same_app _ _ [s; s] []); [now apply same_square|]. apply same_undo. now apply (f_lt n A f TW). }
  pose proof (class_loop_ok n c (valid n W) CV ltac:(intros s v v' Hs Vv Vv' Q; rewrite <- (CC s v), <- (CC s v') by auto; now rewrite Q) W step (Z.to_nat (weyl_order (type_of comps)))
    (rank_is n A comps W D RM MK) ST) as M.
  specialize (M (elements_bound n A comps W D RM MK)).
  specialize (M w fuel V ltac:(lia)). apply gives_sure in M. destruct M as (l & F & S & P). exists l. split; [exact F|]. split; [auto|]. split; [now apply sorted_nodup|].
  assert (OO : forall g, over n g -> over n (g ++ u ++ rev (relabel f g))).
  { intros g Og. apply over_app. split; [auto|]. apply over_app. split; [auto|]. apply over_rev. now apply (d_over n A f TW). }
  intros x. rewrite P. split.
  - intros R. induction R as [|x s Hs R IH].
    + exists []. split; [apply over_nil|]. cbn [app rev relabel map]. rewrite app_nil_r. now apply (element_is n A comps W D RM MK).
    + destruct IH as (g & Og & Eg). exists (s :: g). split; [now apply over_cons|]. apply (element_X n A comps W D RM MK) in Eg; [|now apply OO].
      destruct (CX x _ s Eg Hs) as [_ RX]. apply (element_is n A comps W D RM MK). cbn [app rev relabel map]. rewrite !app_assoc in *. exact RX.
  - intros (g & Og & Eg). revert x Eg. induction g as [|s g IH]; intros x Eg.
    + cbn [app rev relabel map] in Eg. rewrite app_nil_r in Eg. apply (element_X n A comps W D RM MK) in Eg; [|auto]. rewrite (X_unique n A comps W D RM MK _ _ _ Eg E). constructor.
    + pose proof Og as Og'. apply over_cons in Og. destruct Og as [Hs Og]. destruct (C70_element n A W (g ++ u ++ rev (relabel f g))) as (y & Ey & _).
      * exists comps. auto.
      * now apply OO.
      * pose proof (IH Og y Ey) as RY. apply (element_X n A comps W D RM MK) in Ey; [|now apply OO].
        destruct (CX y _ s Ey Hs) as [_ RX]. assert (x = c s y) as ->; [|now constructor].
        apply (element_X n A comps W D RM MK) in Eg; [|now apply OO].
        apply (X_unique n A comps W D RM MK _ _ _ Eg). cbn [app rev relabel map]. rewrite !app_assoc in *. exact RX.
Qed.

(** *** examples *)
Lemma tw_over u : forallb (fun s => s <? 7) u = true -> over 7 u.
Proof. intros H s I. rewrite forallb_forall in H. now apply Nat.ltb_lt, H. Qed.
Lemma tw_same u v : forallb (fun s => s <? 7) u = true -> forallb (fun s => s <? 7) v = true -> element tw_W u = element tw_W v -> same 7 (coxeter tw_A) u v.
Proof. intros H H' E. apply (C70_word_problem 7 tw_A tw_W u v tw_weyl); auto using tw_over. Qed.
Definition tw_u : list nat := [1; 2; 1; 0; 3; 1; 2; 1].
Lemma tw_involution : twisted_involution 7 tw_A tw_f tw_u.
Proof. split; [now apply tw_over|]. apply tw_same; vm_compute; reflexivity. Qed.
Example C77_ex : weyl_of 7 tw_A tw_W /\ (run w <- element tw_W [0; 1; 2]; has_descent tw_W 0 w) = Ok true /\ (run w <- element tw_W [0; 1; 2]; has_descent tw_W 2 w) = Ok false /\
  map (root_word 7 tw_A [0; 1; 2] (simple_root 0)) (seq 0 7) = [-1; -1; -1; 0; 0; 0; 0]%Z /\ map (root_word 7 tw_A [0; 1; 2] (simple_root 2)) (seq 0 7) = [0; 1; 0; 0; 0; 0; 0]%Z.
Proof. split; [exact tw_weyl|]. vm_compute. auto. Qed.
Example C77_action_ex : same 7 (coxeter tw_A) [0; 1; 0; 4] [4; 1; 0; 1] /\ root_word 7 tw_A [0; 1; 0; 4] (simple_root 2) 0 = 1%Z.
Proof. split; [apply tw_same; vm_compute; reflexivity|reflexivity]. Qed.
Example C78_ex : weyl_of 7 tw_A tw_W /\ twist_of 7 tw_A tw_f /\ (run w <- element tw_W [0; 1; 4]; twisted tw_W tw_f w) = element tw_W [3; 2; 5] /\
  dual_twist tw_W tw_f = Ok [0; 1; 2; 3; 5; 4; 6] /\
  (run w <- element tw_W [0; 4]; twisted_conjugate tw_W tw_f w 1) = (run x <- element tw_W [1; 0; 4; 2]; Ok (x, 2%Z)) /\
  (run w <- element tw_W [0; 4]; twisted_conjugate_word tw_W tw_f [1; 0] w) = (run x <- element tw_W [1; 4; 3; 2]; Ok (x, 2%Z)) /\
  (run w <- element tw_W [0; 4]; inverse_twisted_conjugate tw_W tw_f w [0; 1]) = (run x <- element tw_W [1; 4; 3; 2]; Ok (x, 2%Z)) /\
  (run w <- element tw_W [0; 4]; run x <- element tw_W [1; 0]; twisted_conjugate_by tw_W tw_f w x) = element tw_W [1; 4; 3; 2].
Proof. split; [exact tw_weyl|]. split; [exact tw_twist|]. vm_compute. auto 10. Qed.
Example C79_ex : twisted_involution 7 tw_A tw_f [0; 3] /\ twisted_involution 7 tw_A tw_f [1; 2; 1] /\
  (run w <- element tw_W [0; 3]; has_twisted_commutation tw_W tw_f 0 w) = Ok false /\ (run w <- element tw_W [1; 2; 1]; has_twisted_commutation tw_W tw_f 1 w) = Ok true /\
  shortest 7 (coxeter tw_A) [0; 3] 2.
Proof.
  assert (T : forall u, forallb (fun s => s <? 7) u = true -> element tw_W (u ++ relabel tw_f u) = element tw_W [] -> forallb (fun s => s <? 7) (u ++ relabel tw_f u) = true -> twisted_involution 7 tw_A tw_f u).
  { intros u H E H'. split; [now apply tw_over|]. now apply tw_same. }
  split; [apply T; vm_compute; reflexivity|]. split; [apply T; vm_compute; reflexivity|]. split; [vm_compute; reflexivity|]. split; [vm_compute; reflexivity|].
  assert (E : element tw_W [0; 3] = Ok [1; 0; 0; 1; 0; 0; 0]) by (vm_compute; reflexivity).
  destruct (C72_word 7 tw_A tw_W tw_weyl _ [0; 3] (tw_over [0; 3] eq_refl) E) as (v & F & _ & _ & S). assert (Q : word tw_W [1; 0; 0; 1; 0; 0; 0] = Ok [0; 3]) by (vm_compute; reflexivity).
  rewrite Q in F. injection F as <-. exact S.
Qed.
Example C80_ex : weyl_of 7 tw_A tw_W /\ twist_of 7 tw_A tw_f /\ twisted_involution 7 tw_A tw_f (tw_u ++ [6]) /\
  (run w <- element tw_W (tw_u ++ [6]); involution_expr tw_W tw_f 9 w) = Ok [-2; -3; -2; -1; 6]%Z /\
  (run w <- element tw_W (tw_u ++ [6]); canonical_involution_expr tw_W tw_f 9 w) = Ok [-2; -3; -2; -1; 6]%Z /\
  (run w <- element tw_W (tw_u ++ [6]); involution_length tw_W tw_f 9 w) = Ok 5 /\
  trace 7 (twisted_action tw_A tw_f []) = 1%Z /\ trace 7 (twisted_action tw_A tw_f (tw_u ++ [6])) = (-1)%Z.
Proof.
  split; [exact tw_weyl|]. split; [exact tw_twist|]. split; [split; [now apply tw_over|apply tw_same; vm_compute; reflexivity]|]. vm_compute. auto 10.
Qed.
Example C80_words_ex : expresses 7 tw_A tw_f [6; -1]%Z [0; 3; 6] /\ expresses 7 tw_A tw_f [-1; 6]%Z [0; 3; 6] /\
  (run w <- element tw_W [0; 3; 6]; canonical_involution_expr tw_W tw_f 3 w) = Ok [-1; 6]%Z /\ lex_before (map letter_gen [-1; 6]%Z) (map letter_gen [6; -1]%Z).
Proof.
  assert (T : forall u, forallb (fun s => s <? 7) u = true -> element tw_W (u ++ relabel tw_f u) = element tw_W [] -> forallb (fun s => s <? 7) (u ++ relabel tw_f u) = true -> over 7 u /\ twisted_involution 7 tw_A tw_f u).
  { intros u H E H'. split; [now apply tw_over|]. split; [now apply tw_over|]. now apply tw_same. }
  assert (SW : forall x y, over 7 (rebuild tw_f [x; y]) /\ twisted_involution 7 tw_A tw_f (rebuild tw_f [x; y]) -> over 7 (rebuild tw_f [y]) /\ twisted_involution 7 tw_A tw_f (rebuild tw_f [y]) -> stepwise 7 tw_A tw_f [x; y]).
  { intros x y H1 H2 a b E. destruct a as [|a1 [|a2 [|a3 a]]]; cbn in E.
    - now subst b.
    - injection E as _ <-. auto.
    - injection E as _ _ <-. apply T; reflexivity.
    - injection E as _ _ E. discriminate. }
  split; [|split; [|split; [vm_compute; reflexivity|cbn; left; lia]]]; (split; [apply SW; apply T; vm_compute; reflexivity|apply tw_same; vm_compute; reflexivity]).
Qed.
Example C81_orbits_ex : twist_orbits tw_W tw_f = Ok [mk_ext two 0 3; mk_ext three 1 2; mk_ext two 4 5; mk_ext one 6 255].
Proof. vm_compute. reflexivity. Qed.
(** the first letter lowers the length by 6, for an orbit of type three; the code does not complement it *)
Example C81_ex : twisted_involution 7 tw_A tw_f tw_u /\ same 7 (coxeter tw_A) (relabel tw_f tw_u) tw_u /\
  (run w <- element tw_W tw_u; extended_involution_expr tw_W tw_f 8 w) = Ok [1; 0]%Z /\
  (run w <- element tw_W [4; 3; 0; 1; 2; 1; 3; 0; 5; 6]; extended_involution_expr tw_W tw_f 10 w) = Ok [-1; 1; 2; 3]%Z.
Proof. split; [exact tw_involution|]. split; [apply tw_same; vm_compute; reflexivity|]. split; [vm_compute; reflexivity|]. vm_compute. reflexivity. Qed.
Example C82_ex : describes 7 tw_A tw_comps /\ twist_of 7 tw_A tw_f /\ (run w <- element tw_W [0; 4; 5; 6; 3]; run l <- twisted_class tw_W tw_f 960 w; Ok (length l)) = Ok 30.
Proof. split; [exact tw_describes|]. split; [exact tw_twist|]. vm_compute. reflexivity. Qed.

Print Assumptions C77_descent_root.
Print Assumptions C77_root_sign.
Print Assumptions C77_root_action.
Print Assumptions C78_twisted.
Print Assumptions C78_dual_twist.
Print Assumptions C78_twisted_conjugate.
Print Assumptions C78_conjugate_word.
Print Assumptions C78_inverse_conjugate.
Print Assumptions C78_conjugate_by.
Print Assumptions C78_conjugate_involution.
Print Assumptions C79_twisted_commutation.
Print Assumptions C79_alternative.
Print Assumptions C80_involution_expr.
Print Assumptions C80_length.
Print Assumptions C80_minimal.
Print Assumptions C80_canonical.
Print Assumptions C81_orbits.
Print Assumptions C81_extended_expr.
Print Assumptions C82_twisted_class.
