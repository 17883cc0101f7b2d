(** The Tits group: action on pairs of an element of the torus and a Weyl group element, normal forms *)

From Coq Require Import List Arith NArith ZArith Lia Bool.
From Verif Require Import MatSpec MatLin WeylSpec TwistSpec F2Spec F2Basics F2Solve F2Ops F2Kernel WeylTable WeylExchange WeylGroup WeylSign TgSpec.
Import ListNotations.
Open Scope nat_scope.

Section Tits.
Variables (n : nat) (A : nat -> nat -> Z) (r : nat) (root coroot : nat -> N).
Hypothesis C : Cartan_like n A.
Hypothesis PAIR : forall s t, s < n -> t < n -> scalar r (root s) (coroot t) = Z.odd (A s t).
Hypothesis WR : forall s, s < n -> within r (coroot s).
Variable ell : list nat -> nat.
Hypothesis ELL : forall u, over n u -> shortest n (coxeter A) u (ell u).
Notation "u ~ v" := (same n (coxeter A) u v) (at level 70).
Notation E_same := (ell_same n (coxeter A) ell ELL).
Notation E_cons := (ell_cons n (coxeter A) ell ELL).
Notation rw := (root_word n A).
Notation refl := (reflect2 r root coroot).
Notation act := (act2 r root coroot).
Notation ts := (tsame n (coxeter A) r root coroot).

(** *** reflections *)
Lemma scalar_0_r a : scalar r a 0 = false.
Proof. rewrite scalar_comm. apply scalar_0. Qed.
Lemma refl_eq s x : refl s x = N.lxor x (if scalar r (root s) x then coroot s else 0%N).
Proof. unfold reflect2. destruct (scalar _ _ _); [auto|now rewrite N.lxor_0_r]. Qed.
Lemma if_xorb (b c : bool) (m : N) : (if xorb b c then m else 0%N) = N.lxor (if b then m else 0%N) (if c then m else 0%N).
Proof. destruct b, c; cbn [xorb]; now rewrite ?N.lxor_nilpotent, ?N.lxor_0_r, ?N.lxor_0_l. Qed.
Ltac xors := apply coord_ext; intros i; rewrite ?coord_lxor; repeat match goal with |- context [coord ?x i] => destruct (coord x i) end; reflexivity.
Lemma refl_lin s x y : refl s (N.lxor x y) = N.lxor (refl s x) (refl s y).
Proof. rewrite !refl_eq, scalar_xor_r, if_xorb. xors. Qed.
Lemma even_diag s : s < n -> scalar r (root s) (coroot s) = false.
Proof. intros Hs. rewrite PAIR by auto. destruct C as [D _]. now rewrite D. Qed.
Lemma refl_own s : s < n -> refl s (coroot s) = coroot s.
Proof. intros Hs. unfold reflect2. now rewrite even_diag. Qed.
Lemma refl_square s x : s < n -> refl s (refl s x) = x.
Proof.
  intros Hs. unfold reflect2 at 2. destruct (scalar r (root s) x) eqn:E.
  - rewrite refl_lin, refl_own by auto. unfold reflect2. rewrite E. now rewrite N.lxor_assoc, N.lxor_nilpotent, N.lxor_0_r.
  - unfold reflect2. now rewrite E.
Qed.
Lemma refl_within s x : s < n -> within r x -> within r (refl s x).
Proof. intros Hs H. unfold reflect2. destruct (scalar _ _ _); [apply within_lxor|]; auto. Qed.
Lemma refl_0 s : refl s 0 = 0%N.
Proof. unfold reflect2. now rewrite scalar_0_r. Qed.
Lemma act_cons s u x : act (s :: u) x = refl s (act u x).
Proof. reflexivity. Qed.
Lemma act_lin u : forall x y, act u (N.lxor x y) = N.lxor (act u x) (act u y).
Proof. induction u as [|s u IH]; intros x y; [auto|]. now rewrite !act_cons, IH, refl_lin. Qed.
Lemma act_app u v x : act (u ++ v) x = act u (act v x).
Proof. unfold act2. now rewrite fold_right_app. Qed.
Lemma act_within u x : over n u -> within r x -> within r (act u x).
Proof. induction u as [|s u IH]; intros O H; [auto|]. apply over_cons in O. destruct O. rewrite act_cons. apply refl_within; auto. Qed.

(** *** two generators *)
Definition comb (s t : nat) (ab : bool * bool) : N := N.lxor (if fst ab then coroot s else 0%N) (if snd ab then coroot t else 0%N).
Lemma comb_swap s t a b : comb s t (a, b) = comb t s (b, a).
Proof. unfold comb. cbn. apply N.lxor_comm. Qed.
Lemma scalar_if s (b : bool) x : scalar r (root s) (if b then x else 0%N) = b && scalar r (root s) x.
Proof. destruct b; [auto|apply scalar_0_r]. Qed.
Lemma scalar_comb s t a b : s < n -> t < n -> scalar r (root s) (comb s t (a, b)) = b && Z.odd (A s t).
Proof.
  intros Hs Ht. unfold comb. cbn [fst snd]. rewrite scalar_xor_r, !scalar_if, even_diag, PAIR by auto. now rewrite andb_false_r, xorb_false_l.
Qed.
Lemma refl_comb s t a b : s < n -> t < n -> refl s (comb s t (a, b)) = comb s t (xorb a (b && Z.odd (A s t)), b).
Proof. intros Hs Ht. rewrite refl_eq, scalar_comb by auto. unfold comb. cbn [fst snd]. rewrite if_xorb. xors. Qed.
Fixpoint bref (k : nat) (p q es et : bool) : bool * bool :=
  match k with
  | O => (false, false)
  | S k => let '(b, a) := bref k q p et es in (xorb a (xorb es (b && p)), b)
  end.
Lemma act_alt k : forall s t x, s < n -> t < n ->
  act (alt k s t) x = N.lxor x (comb s t (bref k (Z.odd (A s t)) (Z.odd (A t s)) (scalar r (root s) x) (scalar r (root t) x))).
Proof.
  induction k as [|k IH]; intros s t x Hs Ht.
  - cbn [alt act2 fold_right bref]. unfold comb. cbn [fst snd]. symmetry. apply N.lxor_0_r.
  - cbn [alt]. rewrite act_cons, IH by auto. cbn [bref]. destruct (bref k _ _ _ _) as [b a].
    rewrite refl_eq, scalar_xor_r. rewrite comb_swap, scalar_comb by auto. unfold comb. cbn [fst snd]. rewrite !if_xorb. xors.
Qed.
Lemma bref_braid p q es et : finite_pair p q -> let '(a, b) := bref (bond (p * q)) (Z.odd p) (Z.odd q) es et in bref (bond (p * q)) (Z.odd q) (Z.odd p) et es = (b, a).
Proof.
  intros P. unfold finite_pair in P. cbn in P.
  destruct P as [P|[P|[P|[P|[P|[P|[]]]]]]]; injection P as P1 P2; rewrite <- P1, <- P2; destruct es, et; reflexivity.
Qed.
Theorem act_braid s t x : s < n -> t < n -> s <> t -> act (alt (coxeter A s t) s t) x = act (alt (coxeter A s t) t s) x.
Proof.
  intros Hs Ht N. rewrite !act_alt by auto. f_equal. destruct C as [_ F]. pose proof (bref_braid _ _ (scalar r (root s) x) (scalar r (root t) x) (F s t Hs Ht N)) as B.
  unfold coxeter. destruct (bref _ (Z.odd (A s t)) _ _ _) as [a b]. rewrite B. apply comb_swap.
Qed.
Theorem act_same u v : u ~ v -> forall x, act u x = act v x.
Proof.
  induction 1 as [u|u v H IH|u v w H1 IH1 H2 IH2|u u' v v' H1 IH1 H2 IH2|s Hs|s t Hs Ht Hn]; intros x.
  - auto.
  - now rewrite IH.
  - now rewrite IH1.
  - now rewrite !act_app, IH2, IH1.
  - cbn [act2 fold_right]. now apply refl_square.
  - now apply act_braid.
Qed.

(** *** the part added to the torus when multiplying [u] on the left by the word [v] *)
Definition drop (s : nat) (u : list nat) : bool := ell (s :: u) <? ell u.
Fixpoint coc (v u : list nat) : N :=
  match v with
  | [] => 0%N
  | s :: v => N.lxor (refl s (coc v u)) (if drop s (v ++ u) then coroot s else 0%N)
  end.
Lemma coc_app v w u : coc (v ++ w) u = N.lxor (coc v (w ++ u)) (act v (coc w u)).
Proof.
  induction v as [|s v IH]; cbn [app coc]; [now rewrite N.lxor_0_l|]. rewrite IH, refl_lin, act_cons, <- app_assoc. xors.
Qed.
Lemma coc_within v u : over n v -> within r (coc v u).
Proof.
  induction v as [|s v IH]; intros O; cbn [coc]; [apply within_0|]. apply over_cons in O. destruct O. apply within_lxor; [apply refl_within; auto|].
  destruct (drop _ _); [auto|apply within_0].
Qed.
Lemma drop_same s u v : s < n -> over n u -> u ~ v -> drop s u = drop s v.
Proof.
  intros Hs O E. unfold drop. rewrite (E_same u v O E), (E_same (s :: u) (s :: v)); auto; [now apply over_cons|now apply same_cons].
Qed.
Lemma coc_same v u u' : over n v -> over n u -> u ~ u' -> coc v u = coc v u'.
Proof.
  intros O O' E. induction v as [|s v IH]; cbn [coc]; [auto|]. apply over_cons in O. destruct O as [Hs O]. rewrite IH by auto. f_equal.
  rewrite (drop_same s (v ++ u) (v ++ u')); auto; [now apply over_app|now apply same_app_l].
Qed.
(** negativity of a combination of two roots *)
Definition neg (s t : nat) (u : list nat) (x y : Z) : bool := forallb (fun j => (x * rw u (simple_root s) j + y * rw u (simple_root t) j <=? 0)%Z) (seq 0 n).
Lemma neg_swap s t u x y : neg s t u x y = neg t s u y x.
Proof. unfold neg. induction (seq 0 n) as [|a l IH]; [auto|]. cbn [forallb]. now rewrite IH, Z.add_comm. Qed.
Lemma drop_neg s t j u : s < n -> t < n -> s <> t -> over n u ->
  drop s (alt j t s ++ u) = let '(x, y) := swing j (A s t) (A t s) 1 0 in neg s t u x y.
Proof.
  intros Hs Ht N O. assert (OA : over n (alt j t s)) by now apply over_alt. assert (OO : over n (alt j t s ++ u)) by now apply over_app.
  pose proof (fun i Hi => rw_swing n A C j s t 1 0 i Hs Ht N Hi) as RS. destruct (swing j (A s t) (A t s) 1 0) as [x y].
  assert (V : forall i, i < n -> rw (alt j t s ++ u) (simple_root s) i = (x * rw u (simple_root s) i + y * rw u (simple_root t) i)%Z).
  { intros i Hi. rewrite rw_app. rewrite (rw_ext n A u O _ (two s t x y)); auto.
    - unfold two. now apply rw_lin.
    - intros k Hk. rewrite <- RS by auto. apply rw_ext; auto. intros k' Hk'. unfold two. ring. }
  pose proof (descent_sign n A C ell ELL (alt j t s ++ u) s Hs OO) as DS.
  unfold drop. destruct (Nat.ltb_spec (ell (s :: alt j t s ++ u)) (ell (alt j t s ++ u))) as [L|L]; symmetry.
  - apply DS in L. destruct L as [L _]. apply forallb_forall. intros i Hi. apply in_seq in Hi. specialize (L i ltac:(lia)). rewrite V in L by lia. apply Z.leb_le. lia.
  - destruct (neg s t u x y) eqn:Q; [exfalso|auto]. unfold neg in Q. rewrite forallb_forall in Q.
    destruct (sign_positive n A C ell ELL (alt j t s ++ u) s Hs OO) as [_ (i & Hi & P)].
    + destruct (E_cons s (alt j t s ++ u) Hs OO); lia.
    + specialize (Q i ltac:(apply in_seq; lia)). rewrite V in P by auto. apply Z.leb_le in Q. lia.
Qed.
Fixpoint bcoc (k : nat) (p q : Z) (dn : Z -> Z -> bool) : bool * bool :=
  match k with
  | O => (false, false)
  | S k => let '(b, a) := bcoc k q p (fun y x => dn x y) in
           let '(x, y) := swing k p q 1 0 in (xorb (xorb a (b && Z.odd p)) (dn x y), b)
  end.
Lemma bcoc_ext k : forall p q d d', (forall x y, d x y = d' x y) -> bcoc k p q d = bcoc k p q d'.
Proof.
  induction k as [|k IH]; intros p q d d' E; [auto|]. cbn [bcoc]. rewrite (IH q p (fun y x => d x y) (fun y x => d' x y)) by (intros; apply E).
  destruct (bcoc k q p _) as [b a]. destruct (swing k p q 1 0). now rewrite E.
Qed.
Lemma coc_alt k : forall s t u, s < n -> t < n -> s <> t -> over n u -> coc (alt k s t) u = comb s t (bcoc k (A s t) (A t s) (neg s t u)).
Proof.
  induction k as [|k IH]; intros s t u Hs Ht N O; [reflexivity|]. cbn [alt coc bcoc]. rewrite IH by auto.
  rewrite (bcoc_ext k _ _ (neg t s u) (fun y x => neg s t u x y)) by (intros; apply neg_swap). destruct (bcoc k _ _ _) as [b a].
  rewrite comb_swap, refl_comb by auto. rewrite (drop_neg s t k u) by auto. destruct (swing k _ _ 1 0) as [x y].
  unfold comb. cbn [fst snd]. rewrite !if_xorb. xors.
Qed.
Lemma bcoc_braid p q d : finite_pair p q -> let '(a, b) := bcoc (bond (p * q)) p q d in bcoc (bond (p * q)) q p (fun y x => d x y) = (b, a).
Proof.
  intros P. unfold finite_pair in P. cbn in P.
  destruct P as [P|[P|[P|[P|[P|[P|[]]]]]]]; injection P as P1 P2; rewrite <- P1, <- P2; cbn;
  repeat match goal with |- context [d ?x ?y] => destruct (d x y) end; reflexivity.
Qed.
Theorem coc_braid s t u : s < n -> t < n -> s <> t -> over n u -> coc (alt (coxeter A s t) s t) u = coc (alt (coxeter A s t) t s) u.
Proof.
  intros Hs Ht N O. rewrite !coc_alt by auto. destruct C as [_ F]. pose proof (bcoc_braid _ _ (neg s t u) (F s t Hs Ht N)) as B.
  unfold coxeter. destruct (bcoc _ (A s t) _ _) as [a b]. rewrite (bcoc_ext _ _ _ (neg t s u) (fun y x => neg s t u x y)) by (intros; apply neg_swap). rewrite B. apply comb_swap.
Qed.
(** a shortest word adds nothing *)
Lemma coc_reduced v : over n v -> ell v = length v -> coc v [] = 0%N.
Proof.
  induction v as [|s v IH]; intros O L; [auto|]. pose proof O as O'. apply over_cons in O'. destruct O' as [Hs O']. cbn [length] in L. cbn [coc].
  pose proof (ell_le n _ ell ELL v O') as LV. assert (LE : ell v = length v) by (destruct (E_cons s v Hs O'); lia).
  rewrite IH, refl_0, app_nil_r by auto. unfold drop. destruct (Nat.ltb_spec (ell (s :: v)) (ell v)); [lia|apply N.lxor_0_l].
Qed.

(** *** the action *)
Definition step (a : letter) (p : N * list nat) : N * list nat :=
  match a with
  | Sig s => (N.lxor (refl s (fst p)) (if drop s (snd p) then coroot s else 0%N), s :: snd p)
  | Tor x => (N.lxor x (fst p), snd p)
  end.
Definition steps (u : list letter) (p : N * list nat) : N * list nat := fold_right step p u.
Definition alike (p q : N * list nat) : Prop := fst p = fst q /\ snd p ~ snd q.
Lemma alike_trans p q p' : alike p q -> alike q p' -> alike p p'.
Proof. intros [E1 S1] [E2 S2]. split; [congruence|]. eapply same_trans; eauto. Qed.
Lemma alike_sym p q : alike p q -> alike q p.
Proof. intros [E1 S1]. split; [auto|now apply same_sym]. Qed.
Definition sigs (u : list letter) : list nat := flat_map (fun a => match a with Sig s => [s] | Tor _ => [] end) u.
Lemma steps_app u v p : steps (u ++ v) p = steps u (steps v p).
Proof. unfold steps. now rewrite fold_right_app. Qed.
Lemma steps_sig v : forall x u, steps (map Sig v) (x, u) = (N.lxor (act v x) (coc v u), v ++ u).
Proof.
  induction v as [|s v IH]; intros x u; cbn [map steps fold_right coc app act2]; [now rewrite N.lxor_0_r|].
  fold (steps (map Sig v) (x, u)). rewrite IH. cbn [step fst snd]. rewrite refl_lin. fold (act v x). f_equal. xors.
Qed.
Lemma steps_snd u : forall p, snd (steps u p) = sigs u ++ snd p.
Proof. induction u as [|[s|x] u IH]; intros p; cbn; [auto|f_equal; apply IH|apply IH]. Qed.
Definition letters_ok (u : list letter) : Prop := over n (sigs u).
Lemma sigs_app u v : sigs (u ++ v) = sigs u ++ sigs v.
Proof. unfold sigs. apply flat_map_app. Qed.
Lemma sigs_sig u : sigs (map Sig u) = u.
Proof. induction u as [|s u IH]; [auto|]. cbn. now f_equal. Qed.
Lemma steps_alike u : letters_ok u -> forall p q, over n (snd p) -> alike p q -> alike (steps u p) (steps u q).
Proof.
  unfold letters_ok. induction u as [|a u IH]; intros O p q Op E; [auto|]. cbn [steps fold_right]. fold (steps u p) (steps u q). destruct a as [s|x].
  - cbn in O. apply over_cons in O. destruct O as [Hs O]. destruct (IH O p q Op E) as [E1 E2]. split; cbn [step fst snd].
    + rewrite E1. f_equal. rewrite (drop_same s (snd (steps u p)) (snd (steps u q))); auto. rewrite steps_snd. now apply over_app.
    + now apply same_cons.
  - destruct (IH O p q Op E) as [E1 E2]. split; cbn [step fst snd]; [now rewrite E1|auto].
Qed.
Lemma ts_same u v : ts u v -> sigs u ~ sigs v.
Proof.
  induction 1 as [u|u v H IH|u v w H1 IH1 H2 IH2|u u' v v' H1 IH1 H2 IH2|s Hs|s t Hs Ht Hn| |x y Hx Hy|s x Hs Hx]; cbn; try apply same_refl.
  - now apply same_sym.
  - eapply same_trans; eauto.
  - rewrite !sigs_app. now apply same_app.
  - now apply same_square.
  - rewrite !sigs_sig. now apply same_braid.
Qed.
Lemma ts_ok u v : ts u v -> (letters_ok u <-> letters_ok v).
Proof. intros H. apply ts_same in H. apply (same_over n _ _ _ H). Qed.
Lemma drop_back s u : s < n -> over n u -> xorb (drop s u) (drop s (s :: u)) = true.
Proof.
  intros Hs O. unfold drop. assert (E : ell (s :: s :: u) = ell u).
  { apply E_same; [apply over_cons; split; [auto|now apply over_cons]|]. now apply undo. }
  rewrite E. destruct (E_cons s u Hs O) as [L|L]; destruct (Nat.ltb_spec (ell (s :: u)) (ell u)), (Nat.ltb_spec (ell u) (ell (s :: u))); auto; lia.
Qed.
Theorem sound u v : ts u v -> letters_ok u -> forall p, over n (snd p) -> alike (steps u p) (steps v p).
Proof.
  induction 1 as [u|u v H IH|u v w H1 IH1 H2 IH2|u u' v v' H1 IH1 H2 IH2|s Hs|s t Hs Ht Hn| |x y Hx Hy|s x Hs Hx]; intros O p Op.
  - split; [auto|apply same_refl].
  - apply alike_sym, IH; auto. now apply (ts_ok u v).
  - eapply alike_trans; [now apply IH1|]. apply IH2; auto. now apply (ts_ok u v).
  - unfold letters_ok in O. rewrite sigs_app in O. apply over_app in O. destruct O as [O1 O2]. rewrite !steps_app.
    eapply alike_trans; [apply steps_alike; [auto| |now apply IH2]|].
    + rewrite steps_snd. now apply over_app.
    + apply IH1; auto. rewrite steps_snd. apply over_app. split; [|auto]. now apply (ts_ok v v').
  - destruct p as [x u]. cbn [snd] in Op. split; cbn [steps fold_right step fst snd].
    + rewrite refl_lin, refl_square by auto. pose proof (drop_back s u Hs Op) as B.
      destruct (drop s u), (drop s (s :: u)); try discriminate B; rewrite ?refl_own, ?refl_0 by auto; rewrite ?N.lxor_0_r; apply N.lxor_comm.
    + now apply undo.
  - destruct p as [x u]. rewrite !steps_sig. split; cbn [fst snd]; [now rewrite act_braid, coc_braid by auto|]. apply same_app_r. now apply same_braid.
  - destruct p as [x u]. split; [apply N.lxor_0_l|apply same_refl].
  - destruct p as [z u]. split; cbn [steps fold_right step fst snd]; [now rewrite N.lxor_assoc|apply same_refl].
  - destruct p as [z u]. split; cbn [steps fold_right step fst snd]; [rewrite refl_lin; xors|apply same_refl].
Qed.

(** *** normal forms *)
Lemma ts_cons a u v : ts u v -> ts (a :: u) (a :: v).
Proof. intros H. apply (ts_app _ _ _ _ _ [a] [a] u v); [apply ts_refl|auto]. Qed.
Lemma ts_app_l u v w : ts v w -> ts (u ++ v) (u ++ w).
Proof. intros H. apply ts_app; [apply ts_refl|auto]. Qed.
Lemma ts_app_r u v w : ts v w -> ts (v ++ u) (w ++ u).
Proof. intros H. apply ts_app; [auto|apply ts_refl]. Qed.
Lemma ts_merge x y u : within r x -> within r y -> ts (Tor x :: Tor y :: u) (Tor (N.lxor x y) :: u).
Proof. intros Hx Hy. apply (ts_app_r u [Tor x; Tor y] [Tor (N.lxor x y)]). now apply ts_add. Qed.
Lemma ts_pass s x u : s < n -> within r x -> ts (Sig s :: Tor x :: u) (Tor (refl s x) :: Sig s :: u).
Proof. intros Hs Hx. apply (ts_app_r u [Sig s; Tor x] [Tor (refl s x); Sig s]). now apply ts_commute. Qed.
Lemma ts_zero u : ts (Tor 0 :: u) u.
Proof. apply (ts_app_r u [Tor 0%N] []). apply ts_one. Qed.
Lemma ts_push v x u : over n v -> within r x -> ts (map Sig v ++ Tor x :: u) (Tor (act v x) :: map Sig v ++ u).
Proof.
  intros O Hx. induction v as [|s v IH]; [apply ts_refl|]. apply over_cons in O. destruct O as [Hs O]. cbn [map app].
  eapply ts_trans; [apply ts_cons; now apply IH|]. rewrite act_cons. apply ts_pass; [auto|now apply act_within].
Qed.
Lemma lift_same u v : u ~ v -> over n u -> exists x, within r x /\ ts (map Sig u) (Tor x :: map Sig v).
Proof.
  induction 1 as [u|u v H IH|u v w H1 IH1 H2 IH2|u u' v v' H1 IH1 H2 IH2|s Hs|s t Hs Ht Hn]; intros O.
  - exists 0%N. split; [apply within_0|]. apply ts_sym, ts_zero.
  - destruct IH as (x & Hx & E); [now apply (same_over n _ u v H)|]. exists x. split; [auto|]. apply ts_sym. eapply ts_trans; [apply ts_cons, E|].
    eapply ts_trans; [now apply ts_merge|]. rewrite N.lxor_nilpotent. apply ts_zero.
  - destruct IH1 as (x & Hx & E); [auto|]. destruct IH2 as (y & Hy & E'); [now apply (same_over n _ u v H1)|]. exists (N.lxor x y). split; [now apply within_lxor|].
    eapply ts_trans; [apply E|]. eapply ts_trans; [apply ts_cons, E'|]. now apply ts_merge.
  - apply over_app in O. destruct O as [O1 O2]. destruct IH1 as (x & Hx & E); [auto|]. destruct IH2 as (y & Hy & E'); [auto|]. pose proof (proj1 (same_over n _ u u' H1) O1) as O3.
    exists (N.lxor x (act u' y)). split; [apply within_lxor; [auto|now apply act_within]|]. rewrite !map_app.
    eapply ts_trans; [apply ts_app; [apply E|apply E']|]. cbn [app]. eapply ts_trans; [apply ts_cons; now apply ts_push|]. apply ts_merge; [auto|now apply act_within].
  - exists (coroot s). split; [now apply WR|]. now apply ts_square.
  - exists 0%N. split; [apply within_0|]. eapply ts_trans; [now apply ts_braid|]. apply ts_sym, ts_zero.
Qed.
Lemma proper_cons a u : proper_word n r (a :: u) <-> proper n r a /\ proper_word n r u.
Proof. unfold proper_word. cbn [In]. split; [intros H; split; auto|]. intros [H1 H2] b [<-|I]; auto. Qed.
Lemma proper_app u v : proper_word n r (u ++ v) <-> proper_word n r u /\ proper_word n r v.
Proof. unfold proper_word. split; [intros H; split; intros a I; apply H, in_or_app; auto|]. intros [H1 H2] a I. apply in_app_or in I. destruct I; auto. Qed.
Lemma proper_ok u : proper_word n r u -> letters_ok u.
Proof. unfold letters_ok. induction u as [|[s|x] u IH]; intros P; cbn; [apply over_nil| |]; apply proper_cons in P; destruct P as [P1 P2]; [apply over_cons; auto|auto]. Qed.
Lemma proper_sig v : over n v -> proper_word n r (map Sig v).
Proof. intros O a I. apply in_map_iff in I. destruct I as (s & <- & I). now apply O. Qed.
Lemma gather u : proper_word n r u -> exists x, within r x /\ ts u (Tor x :: map Sig (sigs u)).
Proof.
  induction u as [|[s|y] u IH]; intros P.
  - exists 0%N. split; [apply within_0|]. apply ts_sym, ts_zero.
  - apply proper_cons in P. destruct P as [Hs P]. destruct IH as (x & Hx & E); [auto|]. exists (refl s x). split; [now apply refl_within|].
    eapply ts_trans; [apply ts_cons, E|]. cbn [sigs flat_map app map]. now apply ts_pass.
  - apply proper_cons in P. destruct P as [Hy P]. destruct IH as (x & Hx & E); [auto|]. exists (N.lxor y x). split; [now apply within_lxor|].
    eapply ts_trans; [apply ts_cons, E|]. now apply ts_merge.
Qed.
Definition reduced_word (v : list nat) : Prop := over n v /\ ell v = length v.
Lemma steps_normal x v : reduced_word v -> steps (Tor x :: map Sig v) (0%N, []) = (x, v).
Proof.
  intros [O L]. cbn [steps fold_right]. fold (steps (map Sig v) (0%N, [])). rewrite steps_sig, (coc_reduced v O L), N.lxor_0_r, app_nil_r. cbn [step fst snd]. f_equal.
  replace (act v 0) with 0%N; [apply N.lxor_0_r|]. clear. induction v as [|s v IH]; [auto|]. now rewrite act_cons, <- IH, refl_0.
Qed.
(** every word is equal to a normal form; its torus part is the one computed *)
Theorem normal u v : proper_word n r u -> reduced_word v -> sigs u ~ v -> ts u (Tor (fst (steps u (0%N, []))) :: map Sig v).
Proof.
  intros P R E. pose proof R as [O L]. destruct (gather u P) as (x & Hx & G). destruct (lift_same (sigs u) v E (proper_ok u P)) as (y & Hy & F).
  assert (T : ts u (Tor (N.lxor x y) :: map Sig v)).
  { eapply ts_trans; [apply G|]. eapply ts_trans; [apply ts_cons, F|]. now apply ts_merge. }
  destruct (sound _ _ T (proper_ok u P) (0%N, []) (over_nil n)) as [Q _]. rewrite (steps_normal _ v R) in Q. cbn [fst] in Q. now rewrite Q.
Qed.
Lemma steps_within u : proper_word n r u -> within r (fst (steps u (0%N, []))).
Proof.
  induction u as [|[s|y] u IH]; intros P; [apply within_0| |]; apply proper_cons in P; destruct P as [P1 P2]; cbn [steps fold_right step fst]; fold (steps u (0%N, [])); cbn in P1.
  - apply within_lxor; [apply refl_within; auto|]. destruct (drop _ _); [auto|apply within_0].
  - apply within_lxor; auto.
Qed.
Theorem complete u v : proper_word n r u -> proper_word n r v -> alike (steps u (0%N, [])) (steps v (0%N, [])) -> ts u v.
Proof.
  intros P Q [E1 E2]. rewrite !steps_snd, !app_nil_r in E2. destruct (ell_word n _ ell ELL (sigs u) (proper_ok u P)) as (w & Ow & Sw & Lw).
  assert (R : reduced_word w). { split; [auto|]. rewrite Lw. symmetry. apply E_same; auto. now apply proper_ok. }
  eapply ts_trans; [now apply (normal u w)|]. rewrite E1. apply ts_sym. apply normal; auto. eapply same_trans; [|apply Sw]. now apply same_sym.
Qed.
(** two shortest words for the same element *)
Theorem shortest_words u v : reduced_word u -> reduced_word v -> u ~ v -> ts (map Sig u) (map Sig v).
Proof.
  intros [Ou Lu] [Ov Lv] E. apply complete; auto using proper_sig. rewrite !steps_sig, (coc_reduced u Ou Lu), (coc_reduced v Ov Lv), !app_nil_r, !N.lxor_0_r.
  split; [|auto]. cbn [fst]. now apply act_same.
Qed.
End Tits.
