(** Properties C157-C161: Tits groups. *)

From Coq Require Import List Arith NArith ZArith Lia Bool Ascii Permutation.
From Verif Require Import VecModel VecProofs RunModel RunProofs MatModel MatSpec F2Model F2Spec F2Basics F2Proofs WeylModel WeylSpec TwistSpec
  WeylTable WeylGroup WeylExchange WeylOps WeylMake WeylExt WeylProps TwistProofs TwistProps RootSpec RootProps DatModel DatSpec DatProps DfSpec DfProps ToriSpec TgModel TgSpec TgSem TgMath TgProofs TgCoset TgRuns TgMake.
Import ListNotations.
Open Scope nat_scope.

(** * C157: construction *)
(** the Tits group of a root datum [d] with Weyl group [W], an involution [g] of its weights that permutes the simple
    roots by [f]: simple roots and coroots modulo 2, and the transpose of [g] modulo 2 *)
Theorem C157_root_datum dim fits r n A B p d W f dl g : datum_of fits r n A B p d -> weyl_of n (pairings r A B) W -> r <= dim ->
  twist_of n (pairings r A B) f -> is_mx dl r r g -> permutes_simple r n A B g (fun s => nth s f 0) -> involutive r g ->
  gives (make_tits dim d W f dl) (fun G => tg_W G = W /\ tg_twist G = f /\ tits_of dim n (pairings r A B) r G /\ twist_ok dim n (pairings r A B) r G /\
    (forall s, s < n -> mod2 r (co (fcol r A s)) (root2 G s) /\ mod2 r (co (fcol r B s)) (coroot2 G s)) /\
    forall x v, mod2 r x v -> mod2 r (fapply r (fun i j => g j i) x) (image_of (cols (tg_inv G)) v)) (fun _ => False).
Proof. apply make_tits_run. Qed.
(** the Tits group of the adjoint group of a Cartan matrix: the coordinates of a torus part are the values of the simple roots *)
Theorem C157_adjoint dim n A c W f : is_mx c n n A -> weyl_of n A W -> n <= dim -> twist_of n A f ->
  gives (make_adjoint_tits dim c W f) (fun G => tg_W G = W /\ tg_twist G = f /\ tits_of dim n A n G /\ twist_ok dim n A n G /\
    (forall s, s < n -> (forall i, coord (root2 G s) i = (i =? s)) /\ mod2 n (fun k => A k s) (coroot2 G s)) /\
    forall x i, within n x -> i < n -> coord (image_of (cols (tg_inv G)) x) i = coord x (nth i f 0)) (fun _ => False).
Proof. apply make_adjoint_run. Qed.
(** *** examples: GL(4) with the involution g -> transpose inverse, and the adjoint group of type A4.A1.A1.A1 *)
Definition g4_comps : list component := [mk_comp "A" 0 [0; 1; 2]].
Definition g4_A : nat -> nat -> Z := pairings 4 (lA 4) (lA 4).
Definition g4_W : weyl_group := Eval vm_compute in match make_weyl 3 g4_comps with Ok W => W | Fail _ => mk_weyl [] [] [] [] [] end.
Definition g4_f : list nat := [2; 1; 0].
Lemma g4_describes : describes 3 g4_A g4_comps.
Proof.
  split; [vm_compute; auto|]. split.
  - apply NoDup_Permutation_bis; [|reflexivity|].
    + cbn. repeat (constructor; [cbn; lia|]). constructor.
    + intros x I. cbn in I. apply in_seq. lia.
  - split.
    + intros c I. cbn in I. destruct I as [<-|[]]; (split; [cbn; lia|]); intros i j p q Hi Hj;
      repeat (destruct i as [|i]; [cbn in Hi; injection Hi as <-; repeat (destruct j as [|j]; [cbn in Hj; injection Hj as <-; vm_compute; reflexivity|]); cbn in Hj; try discriminate; destruct j; discriminate|]);
      cbn in Hi; try discriminate; destruct i; discriminate.
    + intros c d p q I J N P Q. cbn in I, J. destruct I as [<-|[]], J as [<-|[]]; cbn in N; try lia; cbn in P, Q; intuition (subst; reflexivity).
Qed.
Lemma g4_weyl : weyl_of 3 g4_A g4_W.
Proof. exists g4_comps. split; [exact g4_describes|]. split; [lia|]. vm_compute. reflexivity. Qed.
Lemma g4_twist : twist_of 3 g4_A g4_f.
Proof.
  split; [reflexivity|]. split.
  - intros s Hs. do 3 (destruct s as [|s]; [vm_compute; auto 10 with arith|]). lia.
  - intros s t Hs Ht. do 3 (destruct s as [|s]; [do 3 (destruct t as [|t]; [reflexivity|]); lia|]). lia.
Qed.
Lemma g4_permutes : permutes_simple 4 3 (lA 4) (lA 4) (ent 4 (mdata (gl_rev 4))) (fun s => nth s g4_f 0).
Proof. intros i Hi. pose proof (gl4_permutes i Hi) as Q. destruct i as [|[|[|i]]]; [exact Q|exact Q|exact Q|lia]. Qed.
Definition G4 : tits_group := Eval vm_compute in match make_tits 32 GL4 g4_W g4_f (gl_rev 4) with Ok G => G | Fail _ => mk_tits g4_W [] 0 [] [] (bm_zero 0 0) end.
Definition tw_c : matrix Z := mk_mat 7 7 (flat_map (fun i => map (tw_A i) (seq 0 7)) (seq 0 7)).
Definition AG : tits_group := Eval vm_compute in match make_adjoint_tits 32 tw_c tw_W tw_f with Ok G => G | Fail _ => mk_tits g4_W [] 0 [] [] (bm_zero 0 0) end.
Lemma make_G4 : make_tits 32 GL4 g4_W g4_f (gl_rev 4) = Ok G4. Proof. vm_compute. reflexivity. Qed.
Lemma make_AG : make_adjoint_tits 32 tw_c tw_W tw_f = Ok AG. Proof. vm_compute. reflexivity. Qed.
Lemma tw_c_mx : is_mx tw_c 7 7 tw_A.
Proof. split; [reflexivity|]. split; [reflexivity|]. split; [reflexivity|]. intros i j Hi Hj. do 7 (destruct i as [|i]; [do 7 (destruct j as [|j]; [reflexivity|]); lia|]). lia. Qed.
Lemma G4_tits : tits_of 32 3 g4_A 4 G4 /\ twist_ok 32 3 g4_A 4 G4.
Proof.
  pose proof (C157_root_datum 32 i32 4 3 (lA 4) (lA 4) (gl_pre 4) GL4 g4_W g4_f (gl_rev 4) _ datum_gl4 g4_weyl ltac:(lia) g4_twist gl4_mx g4_permutes gl4_inv) as Q.
  rewrite make_G4 in Q. destruct Q as (_ & _ & Q1 & Q2 & _). split; assumption.
Qed.
Lemma AG_tits : tits_of 32 7 tw_A 7 AG /\ twist_ok 32 7 tw_A 7 AG.
Proof.
  pose proof (C157_adjoint 32 7 tw_A tw_c tw_W tw_f tw_c_mx tw_weyl ltac:(lia) TwistProps.tw_twist) as Q. rewrite make_AG in Q. destruct Q as (_ & _ & Q1 & Q2 & _). split; assumption.
Qed.
Example C157_ex : tg_root G4 = [mk_bv 3 4; mk_bv 6 4; mk_bv 12 4] /\ tg_coroot G4 = [mk_bv 3 4; mk_bv 6 4; mk_bv 12 4] /\ tg_inv G4 = mk_bm [8; 4; 2; 1]%N 4 /\
  map data (tg_root AG) = [1; 2; 4; 8; 16; 32; 64]%N /\ map data (tg_coroot AG) = [2; 5; 10; 4; 0; 0; 0]%N /\ cols (tg_inv AG) = [8; 4; 2; 1; 32; 16; 64]%N.
Proof. vm_compute. auto 10. Qed.

(** reflections of torus parts, and the actions of Weyl group elements from the two sides, for any words representing them *)
Theorem C157_reflect dim n A r G x s : tits_of dim n A r G -> sized r x -> s < n ->
  exists y, treflect dim G x s = Ok y /\ sized r y /\ data y = reflect2 r (root2 G) (coroot2 G) s (data x).
Proof. intros T B Hs. destruct (to_weyl _ _ _ _ _ T) as (comps & D & RM & MK). apply (treflect_run dim n A r G RM T x s B Hs). Qed.
Theorem C157_across dim n A r G x v w : tits_of dim n A r G -> sized r x -> over n v -> element (tg_W G) v = Ok w ->
  (exists y, pull_across dim G w x = Ok y /\ sized r y /\ data y = act2 r (root2 G) (coroot2 G) v (data x)) /\
  (exists y, push_across dim G x w = Ok y /\ sized r y /\ data y = act2 r (root2 G) (coroot2 G) (rev v) (data x)) /\
  (run y <- pull_across dim G w x; push_across dim G y w) = Ok x /\ (run y <- push_across dim G x w; pull_across dim G w y) = Ok x.
Proof.
  intros T B O E. destruct (to_weyl _ _ _ _ _ T) as (comps & D & RM & MK). pose proof (proj1 (element_X n A comps (tg_W G) D RM MK w v O) E) as XW.
  assert (CA := Cart n A comps (tg_W G) D RM MK). assert (PAIR := to_pairing _ _ _ _ _ T).
  destruct (pull_run dim n A r G comps D RM MK T w v x XW B) as (y & E1 & B1 & D1). destruct (push_run dim n A r G comps D RM MK T w v x XW B) as (z & E2 & B2 & D2).
  split; [exists y; auto|]. split; [exists z; auto|]. rewrite E1, E2. cbn [bind]. destruct (push_run dim n A r G comps D RM MK T w v y XW B1) as (y' & E3 & B3 & D3).
  destruct (pull_run dim n A r G comps D RM MK T w v z XW B2) as (z' & E4 & B4 & D4). rewrite E3, E4. split; f_equal; apply (bv_eq r); auto.
  - rewrite D3, D1, <- act_app. rewrite (act_same n A r (root2 G) (coroot2 G) CA PAIR (rev v ++ v) []); [reflexivity|]. rewrite <- (rev_involutive v) at 2. apply same_inverse. now apply over_rev.
  - rewrite D4, D2, <- act_app. rewrite (act_same n A r (root2 G) (coroot2 G) CA PAIR (v ++ rev v) []); [reflexivity|]. now apply same_inverse.
Qed.
Example C157_across_ex : tits_of 32 3 g4_A 4 G4 /\ element g4_W [0; 1; 2; 0] = Ok [1; 2; 1] /\
  pull_across 32 G4 [1; 2; 1] (mk_bv 8 4) = Ok (mk_bv 1 4) /\ push_across 32 G4 (mk_bv 8 4) [1; 2; 1] = Ok (mk_bv 4 4) /\ treflect 32 G4 (mk_bv 5 4) 1 = Ok (mk_bv 3 4).
Proof. split; [apply G4_tits|]. vm_compute. auto. Qed.
(** *** the action of the base element on torus parts, and that of a twisted involution given by a word *)
Theorem C157_involution dim n A r G : tits_of dim n A r G -> twist_ok dim n A r G ->
  (forall x, sized r x -> exists y, twisted_part dim G x = Ok y /\ sized r y /\ data y = image_of (cols (tg_inv G)) (data x)) /\
  forall v, over n v -> exists M, involutionMatrix dim G v = Ok M /\ is_matrix r r (cols M) /\ rows M = r /\
    forall x, within r x -> image_of (cols M) x = image_of (cols (tg_inv G)) (act2 r (root2 G) (coroot2 G) (rev v) x).
Proof.
  intros T K. destruct (to_weyl _ _ _ _ _ T) as (comps & D & RM & MK). split.
  - intros x B. apply (twisted_part_run dim n A r G T K x B).
  - intros v O. apply (involutionMatrix_run dim n A r G RM T K v O).
Qed.
Example C157_involution_ex : tits_of 32 3 g4_A 4 G4 /\ twist_ok 32 3 g4_A 4 G4 /\ twisted_part 32 G4 (mk_bv 9 4) = Ok (mk_bv 9 4) /\ twisted_part 32 G4 (mk_bv 3 4) = Ok (mk_bv 12 4) /\
  involutionMatrix 32 G4 [1; 2] = Ok (mk_bm [8; 1; 4; 2]%N 4).
Proof. split; [apply G4_tits|]. split; [apply G4_tits|]. vm_compute. auto. Qed.

(** * C158: the values of the program form the group with the given generators and relations *)
Section Values.
Variables (dim n : nat) (A : nat -> nat -> Z) (r : nat) (G : tits_group).
Hypothesis T : tits_of dim n A r G.
Notation word_ok := (proper_word n r).
Notation "u ~~ v" := (tequal n A r G u v) (at level 70).
Notation means := (denotes n A r G).
Ltac start := destruct (to_weyl _ _ _ _ _ T) as (comps & D & RM & MK).
Ltac toD H := match goal with D : describes _ _ ?comps, RM : n <= 32, MK : make_weyl _ ?comps = Ok _ |- _ => apply (denotes_D0 dim n A r G comps D RM MK T) in H; [|assumption] end.
Ltac fromD := match goal with D : describes _ _ ?comps, RM : n <= 32, MK : make_weyl _ ?comps = Ok _ |- _ => apply (denotes_D0 dim n A r G comps D RM MK T) end.
Lemma coroots_within s : s < n -> within r (coroot2 G s).
Proof. start. apply (WR dim n A r G RM T). Qed.
Lemma like : Cartan_like n A.
Proof. start. exact (Cart n A comps (tg_W G) D RM MK). Qed.

(** every element has exactly one value, and distinct elements have distinct values *)
Theorem C158_total u : word_ok u -> exists a, means u a /\ forall b, means u b -> b = a.
Proof.
  intros P. start. destruct (D0_total dim n A r G comps D RM MK T u P) as (a & Da). exists a. split; [now fromD|]. intros b Db. toD Db. symmetry. exact (D0_unique n A r G comps D RM MK u a b Da Db).
Qed.
Theorem C158_equal u v a b : word_ok u -> word_ok v -> means u a -> means v b -> (te_eq a b = true <-> u ~~ v) /\ (a = b <-> u ~~ v).
Proof.
  intros Pu Pv Da Db. start. toD Da. toD Db. assert (E : a = b <-> u ~~ v).
  - split; [intros <-; exact (D0_eq dim n A r G comps D RM MK T u v a Pu Pv Da Db)|]. intros Q. pose proof (D0_same dim n A r G comps D RM MK T u v a Q Pu Da) as Da'. exact (D0_unique n A r G comps D RM MK v a b Da' Db).
  - split; [|exact E]. rewrite <- E. apply (te_eq_ok r); [apply Da|apply Db].
Qed.
(** the Weyl part is the image of the word in the Weyl group, and the value is read off from a torus part and any shortest word *)
Theorem C158_value t v w : over n v -> shortest n (coxeter A) v (length v) -> element (tg_W G) v = Ok w -> sized r t -> means (Tor (data t) :: map Sig v) (mk_te t w).
Proof. intros O R E B. exists v. repeat (split; [assumption|]). apply ts_refl. Qed.
Theorem C158_normal u a : word_ok u -> means u a -> exists v, WeylModel.word (tg_W G) (te_w a) = Ok v /\ over n v /\ shortest n (coxeter A) v (length v) /\ sized r (te_t a) /\ u ~~ Tor (data (te_t a)) :: map Sig v.
Proof.
  intros P Da. start. toD Da. destruct (D0_normal dim n A r G comps D RM MK T u a P Da) as (v & E & R & _ & Q). exists v. split; [exact E|]. split; [apply R|].
  split; [apply (shortest_reduced n A G comps D RM MK v); [apply R|exact R]|]. split; [apply Da|exact Q].
Qed.
(** shortest words for the same element of the Weyl group give the same element of the Tits group *)
Theorem C158_shortest u v k : over n u -> over n v -> same n (coxeter A) u v -> shortest n (coxeter A) u k -> length u = k -> length v = k -> map Sig u ~~ map Sig v.
Proof.
  intros Ou Ov Q R L1 L2. start. subst k. pose proof (Cart n A comps (tg_W G) D RM MK) as CA. apply (shortest_words n A r (root2 G) (coroot2 G) CA (to_pairing _ _ _ _ _ T) coroots_within _ (ELLx n A comps (tg_W G) D RM MK)).
  - now apply (shortest_reduced n A G comps D RM MK u).
  - apply (shortest_reduced n A G comps D RM MK v); [exact Ov|]. rewrite L2. destruct R as [(u' & Ou' & Lu & Su) R2]. split.
    + exists u'. split; [auto|]. split; [|lia]. eapply same_trans; [apply same_sym; exact Q|exact Lu].
    + intros v' Ov' S'. apply R2; [auto|]. eapply same_trans; [exact Q|exact S'].
  - exact Q.
Qed.
Theorem C158_inverse u : word_ok u -> word_ok (inverse_word (coroot2 G) u) /\ u ++ inverse_word (coroot2 G) u ~~ [] /\ inverse_word (coroot2 G) u ++ u ~~ [].
Proof.
  intros P. split; [apply (inv_proper n r (coroot2 G) coroots_within u P)|]. split.
  - apply (inv_r n A r (root2 G) (coroot2 G)); try assumption; [exact like|exact (to_pairing _ _ _ _ _ T)|exact coroots_within].
  - apply (inv_l n A r (root2 G) (coroot2 G)); try assumption; exact coroots_within.
Qed.

(** * C159: operations *)
Lemma ok_cons a u : proper n r a -> word_ok u -> word_ok (a :: u).
Proof. intros. now apply proper_cons. Qed.
Lemma ok_app u v : word_ok u -> word_ok v -> word_ok (u ++ v).
Proof. intros. now apply proper_app. Qed.
Lemma ok_nil : word_ok [].
Proof. intros a []. Qed.
Lemma ok_inv s : s < n -> word_ok (sig_inv (coroot2 G) s).
Proof. intros Hs. apply ok_cons; [now apply coroots_within|]. apply ok_cons; [exact Hs|exact ok_nil]. Qed.
Lemma ok_sigs v : over n v -> word_ok (map Sig v).
Proof. intros O. now apply proper_sig. Qed.
Ltac ok := repeat first [assumption | apply ok_app | apply ok_inv | apply ok_sigs | apply ok_cons | exact ok_nil | exact (proj1 (A := within _ _) ltac:(eassumption))].
Ltac by_run L := start; match goal with H : means _ _ |- _ => toD H | _ => idtac end; edestruct L as (b0 & E0 & D0'); try eassumption; [..|exists b0; split; [exact E0|fromD; [|exact D0']; ok]].

Theorem C159_identity : means [] (te_identity G).
Proof. start. fromD; [exact ok_nil|]. apply (D0_id dim n A r G comps D RM MK T). Qed.
Theorem C159_of_torus t : sized r t -> means [Tor (data t)] (te_of_torus G t).
Proof. intros B. start. fromD; [apply ok_cons; [apply B|exact ok_nil]|]. now apply (te_of_torus_D0 n A r G comps D RM MK). Qed.
Theorem C159_of_weyl v w : over n v -> shortest n (coxeter A) v (length v) -> element (tg_W G) v = Ok w -> means (map Sig v) (te_of_weyl G w).
Proof. intros O R E. start. fromD; [ok|]. now apply (te_of_weyl_D0 dim n A r G comps D RM MK T). Qed.
Theorem C159_right v w t : over n v -> shortest n (coxeter A) v (length v) -> element (tg_W G) v = Ok w -> sized r t ->
  exists b, te_right dim G w t = Ok b /\ means (map Sig v ++ [Tor (data t)]) b.
Proof. intros O R E B. assert (within r (data t)) by apply B. by_run te_right_D0. Qed.
Theorem C159_right_part u a : word_ok u -> means u a -> exists t v, right_torus_part dim G a = Ok t /\ sized r t /\ over n v /\ element (tg_W G) v = Ok (te_w a) /\
  shortest n (coxeter A) v (length v) /\ u ~~ map Sig v ++ [Tor (data t)].
Proof. intros P Da. start. toD Da. apply (right_part dim n A r G comps D RM MK T u a P Da). Qed.
Theorem C159_left_add t u a : word_ok u -> means u a -> sized r t -> means (Tor (data t) :: u) (left_add t a).
Proof. intros P Da B. start. toD Da. fromD; [apply ok_cons; [apply B|auto]|]. now apply (left_add_D0 n A r G comps). Qed.
Theorem C159_right_add t u a : word_ok u -> means u a -> sized r t -> exists b, right_add dim G a t = Ok b /\ means (u ++ [Tor (data t)]) b.
Proof. intros P Da B. assert (within r (data t)) by apply B. by_run right_add_D0. Qed.
Theorem C159_sigma_mult s u a : word_ok u -> means u a -> s < n -> exists b, sigma_mult dim G s a = Ok b /\ means (Sig s :: u) b.
Proof. intros P Da Hs. by_run sigma_D0. Qed.
Theorem C159_sigma_inv_mult s u a : word_ok u -> means u a -> s < n -> exists b, sigma_inv_mult dim G s a = Ok b /\ means (sig_inv (coroot2 G) s ++ u) b.
Proof. intros P Da Hs. by_run sigma_inv_D0. Qed.
Theorem C159_mult_sigma s u a : word_ok u -> means u a -> s < n -> exists b, mult_sigma dim G a s = Ok b /\ means (u ++ [Sig s]) b.
Proof. intros P Da Hs. by_run mult_sigma_run. Qed.
Theorem C159_mult_sigma_inv s u a : word_ok u -> means u a -> s < n -> exists b, mult_sigma_inv dim G a s = Ok b /\ means (u ++ sig_inv (coroot2 G) s) b.
Proof. intros P Da Hs. by_run mult_sigma_inv_run. Qed.
Theorem C159_product u v a b : word_ok u -> word_ok v -> means u a -> means v b -> exists c, prod dim G a b = Ok c /\ means (u ++ v) c.
Proof.
  intros Pu Pv Da Db. start. toD Da. toD Db. destruct (prod_run dim n A r G comps D RM MK T u v a b Pu Pv Da Db) as (c & E & Dc). exists c. split; [exact E|]. fromD; [ok|exact Dc].
Qed.
Theorem C159_conjugate s u a : word_ok u -> means u a -> s < n -> exists b, sigma_conjugate dim G a s = Ok b /\ means ([Sig s] ++ u ++ sig_inv (coroot2 G) s) b.
Proof. intros P Da Hs. by_run sigma_conjugate_D0. Qed.
Theorem C159_inv_conjugate s u a : word_ok u -> means u a -> s < n -> exists b, sigma_inv_conjugate dim G a s = Ok b /\ means (sig_inv (coroot2 G) s ++ u ++ [Sig s]) b.
Proof. intros P Da Hs. by_run sigma_inv_conjugate_D0. Qed.
Hypothesis K : twist_ok dim n A r G.
Notation f := (fun s => nth s (tg_twist G) 0).
Lemma twist_lt s : s < n -> f s < n.
Proof. intros Hs. exact (F_lt dim n A r G K s Hs). Qed.
Theorem C159_twisted s u a : word_ok u -> means u a -> s < n -> exists b, twistedConjugate dim G a s = Ok b /\ means ([Sig s] ++ u ++ sig_inv (coroot2 G) (f s)) b.
Proof. intros P Da Hs. by_run twistedConjugate_D0; now apply twist_lt. Qed.
Theorem C159_inverse_twisted s u a : word_ok u -> means u a -> s < n -> exists b, inverseTwistedConjugate dim G a s = Ok b /\ means (sig_inv (coroot2 G) s ++ u ++ [Sig (f s)]) b.
Proof. intros P Da Hs. by_run inverseTwistedConjugate_D0; now apply twist_lt. Qed.

(** * C160: the coset of the base element *)
Hypothesis ND : n <= dim.
Variable g : N.
Notation cj := (TgSem.conjugate G g).
(** conjugation by the base element is well defined, and has order two when its signs are compatible *)
Lemma ok_twisted u : word_ok u -> word_ok (twisted_word G g u).
Proof. start. apply tw_proper; [exact coroots_within|exact twist_lt|]. intros x B. exact (d_within dim n A r G K x B). Qed.
Lemma ok_inverse u : word_ok u -> word_ok (inverse_word (coroot2 G) u).
Proof. apply (inv_proper n r (coroot2 G) coroots_within u). Qed.
Lemma ok_conjugate v u : word_ok v -> word_ok u -> word_ok (cj v u).
Proof. intros Pv Pu. apply ok_app; [auto|]. apply ok_app; [auto|]. now apply ok_twisted, ok_inverse. Qed.
Theorem C160_twisted u a : word_ok u -> means u a -> exists b, te_twisted dim G g a = Ok b /\ means (twisted_word G g u) b.
Proof. intros P Da. by_run te_twisted_D0; now apply ok_twisted. Qed.
Theorem C160_valid u a : word_ok u -> means u a -> exists b, is_valid dim G g a = Ok b /\ (b = true <-> square_one n A r G g u).
Proof. intros P Da. start. toD Da. exact (is_valid_run dim n A r G comps D RM MK T K ND g u a P Da). Qed.
Hypothesis SG : signs_ok n G g.
Theorem C160_strict s u a : word_ok u -> means u a -> s < n -> exists b, strict_conjugate dim G g a s = Ok b /\ means (cj [Sig s] u) b /\
  (is_valid dim G g a = Ok true -> is_valid dim G g b = Ok true).
Proof.
  intros P Da Hs. assert (Ps : word_ok [Sig s]) by (apply ok_cons; [exact Hs|exact ok_nil]). start. toD Da. destruct (strict_conjugate_D0 dim n A r G comps D RM MK T K ND g SG s u a P Da Hs) as (b & E & Db).
  exists b. split; [exact E|]. split; [fromD; [now apply ok_conjugate|exact Db]|]. apply (conj_is_valid dim n A r G comps D RM MK T K ND g SG [Sig s] u a b Ps P Da Db).
Qed.
Lemma ok_cross s : s < n -> word_ok (cross_by G g s).
Proof. intros Hs. unfold cross_by. destruct (coord g s); ok. Qed.
Theorem C160_cross s u a : word_ok u -> means u a -> s < n -> exists b, basedTwistedConjugate dim G g a s = Ok b /\ means (cj (cross_by G g s) u) b /\
  (is_valid dim G g a = Ok true -> is_valid dim G g b = Ok true).
Proof.
  intros P Da Hs. start. toD Da. destruct (based_D0 dim n A r G comps D RM MK T K ND g SG s u a P Da Hs) as (b & E & Db).
  exists b. split; [exact E|]. split; [fromD; [apply ok_conjugate; [now apply ok_cross|auto]|exact Db]|]. apply (conj_is_valid dim n A r G comps D RM MK T K ND g SG _ u a b (ok_cross s Hs) P Da Db).
Qed.
Lemma ok_crosses w : over n w -> word_ok (flat_map (cross_by G g) w).
Proof. intros O x I. apply in_flat_map in I as (s & I & J). exact (ok_cross s (O s I) x J). Qed.
(** words act from the right by their successive letters, from the left starting with the last one *)
Theorem C160_cross_word w u a : word_ok u -> means u a -> over n w ->
  (exists b, basedTwistedConjugate_word dim G g a w = Ok b /\ means (cj (flat_map (cross_by G g) (rev w)) u) b /\ (is_valid dim G g a = Ok true -> is_valid dim G g b = Ok true)) /\
  (exists b, word_basedTwistedConjugate dim G g w a = Ok b /\ means (cj (flat_map (cross_by G g) w) u) b /\ (is_valid dim G g a = Ok true -> is_valid dim G g b = Ok true)).
Proof.
  intros P Da O. start. toD Da.
  assert (M : forall w, over n w -> exists b, basedTwistedConjugate_word dim G g a w = Ok b /\ means (cj (flat_map (cross_by G g) (rev w)) u) b /\ (is_valid dim G g a = Ok true -> is_valid dim G g b = Ok true)).
  { intros x Ox. destruct (based_word dim n A r G comps D RM MK T K ND g SG x Ox u a P Da) as (b & E & Db). pose proof (ok_crosses (rev x) (over_rev n x Ox)) as Px.
    exists b. split; [exact E|]. split; [fromD; [now apply ok_conjugate|exact Db]|]. apply (conj_is_valid dim n A r G comps D RM MK T K ND g SG _ u a b Px P Da Db). }
  split; [now apply M|]. destruct (M (rev w) (over_rev n w O)) as (b & Q). rewrite rev_involutive in Q. exists b. exact Q.
Qed.

(** * C161: gradings and Cayley transforms *)
Theorem C161_grading a s : s < n -> simple_grading dim G g a s = Ok (noncompact r G g s a).
Proof. intros Hs. start. apply (simple_grading_run dim n A r G RM T ND g a s Hs). Qed.
Theorem C161_compact a imag : within n imag -> exists res, compact_simples dim G g a imag = Ok res /\ forall s, coord res s = coord imag s && negb (noncompact r G g s a).
Proof. intros B. start. apply (compact_run dim n A r G RM T ND g a imag B). Qed.
Notation imaginary s a := (exists v, over n v /\ element (tg_W G) v = Ok (te_w a) /\ imaginary_for n A (tg_twist G) s v).
(** both conjugations by an imaginary generator change the torus part by its coroot if noncompact, and do nothing if compact *)
Theorem C161_imaginary u a s : word_ok u -> means u a -> s < n -> imaginary s a ->
  let b := mk_te (mk_bv (N.lxor (data (te_t a)) (if noncompact r G g s a then coroot2 G s else 0%N)) r) (te_w a) in
  strict_conjugate dim G g a s = Ok b /\ basedTwistedConjugate dim G g a s = Ok b.
Proof. intros P Da Hs IM. start. toD Da. apply (imaginary_run dim n A r G comps D RM MK T K ND g SG u a s P Da Hs IM). Qed.
(** the square of the Cayley transform is that of the element for noncompact generators, and differs by the coroot for compact ones *)
Theorem C161_Cayley u a s : word_ok u -> means u a -> s < n -> imaginary s a ->
  exists b, Cayley_transform dim G a s = Ok b /\ means (Sig s :: u) b /\
    (Sig s :: u) ++ twisted_word G g (Sig s :: u) ~~ Tor (if noncompact r G g s a then 0%N else coroot2 G s) :: u ++ twisted_word G g u /\
    (noncompact r G g s a = true -> is_valid dim G g b = is_valid dim G g a) /\
    (noncompact r G g s a = false -> coroot2 G s <> 0%N -> is_valid dim G g a = Ok true -> is_valid dim G g b = Ok false).
Proof.
  intros P Da Hs IM. destruct (C159_sigma_mult s u a P Da Hs) as (b & E & Db). exists b. split; [exact E|]. split; [exact Db|].
  destruct (C160_valid u a P Da) as (va & Ea & _). destruct (C160_valid (Sig s :: u) b ltac:(apply ok_cons; auto) Db) as (vb & Eb & _).
  start. toD Da. split; [exact (Cayley_square dim n A r G comps D RM MK T K ND g SG u a s P Da Hs IM)|].
  pose proof (Cayley_valid dim n A r G comps D RM MK T K ND g SG u a b s va vb P Da Hs IM E Ea Eb) as Q. rewrite Ea, Eb. split; intros NC; rewrite NC in Q.
  - now rewrite Q.
  - intros C0 V. injection V as ->. f_equal. now apply Q.
Qed.
(** the inverse transform undoes the Cayley transform by a noncompact generator, whatever the space of adjustments *)
Theorem C161_back u a s ms : word_ok u -> means u a -> s < n -> noncompact r G g s a = true ->
  (run b <- Cayley_transform dim G a s; inverse_Cayley_transform dim G g b s ms) = Ok a.
Proof.
  intros P Da Hs NC. start. toD Da. destruct (sigma_back dim n A r G comps D RM MK T s u a P Da Hs) as (b & E & B). unfold Cayley_transform, inverse_Cayley_transform. rewrite E. cbn [bind].
  rewrite B. cbn [bind]. rewrite C161_grading, NC by auto. reflexivity.
Qed.
(** in general it multiplies by the inverse of the generator, and if this is compact adjusts it by the first available torus part making it noncompact *)
Theorem C161_inverse_Cayley u a s ms : word_ok u -> means u a -> s < n -> Forall (sized r) ms ->
  exists b c, sigma_inv_mult dim G s a = Ok b /\ means (sig_inv (coroot2 G) s ++ u) b /\ inverse_Cayley_transform dim G g a s ms = Ok c /\
    ((c = b /\ (noncompact r G g s b = true \/ forall v, In v ms -> scalar r (root2 G s) (data v) = false)) \/
     (noncompact r G g s b = false /\ noncompact r G g s c = true /\ exists v, In v ms /\ scalar r (root2 G s) (data v) = true /\ c = left_add v b)).
Proof.
  intros P Da Hs F. start. toD Da. destruct (inverse_Cayley_run dim n A r G comps D RM MK T ND g ms s u a Da Hs F) as (b & c & E & Db & Q). exists b, c. split; [exact E|]. split; [fromD; [ok|exact Db]|exact Q].
Qed.
End Values.

(** *** examples in the Tits group of GL(4), twisted by the involution *)
Definition ok_letterb (n r : nat) (a : letter) : bool := match a with Sig s => s <? n | Tor x => (x <? 2 ^ N.of_nat r)%N end.
Lemma ok_word n r u : forallb (ok_letterb n r) u = true -> proper_word n r u.
Proof.
  intros H a I. rewrite forallb_forall in H. specialize (H a I). destruct a as [s|x]; cbn in H |- *; [now apply Nat.ltb_lt|]. apply N.ltb_lt in H. intros i Hi. unfold coord. destruct (N.eq_dec x 0) as [->|NZ]; [apply N.bits_0|]. apply N.bits_above_log2. apply N.log2_lt_pow2 in H; lia.
Qed.
Lemma over_word n u : forallb (fun s => s <? n) u = true -> over n u.
Proof. intros H s I. rewrite forallb_forall in H. now apply Nat.ltb_lt, H. Qed.
Fixpoint evalw (dim : nat) (G : tits_group) (u : list letter) : res telt :=
  match u with
  | [] => Ok (te_identity G)
  | Sig s :: u => run a <- evalw dim G u; sigma_mult dim G s a
  | Tor x :: u => run a <- evalw dim G u; Ok (left_add (mk_bv x (tg_rank G)) a)
  end.
Lemma evalw_means dim n A r G u : tits_of dim n A r G -> proper_word n r u -> exists a, evalw dim G u = Ok a /\ denotes n A r G u a.
Proof.
  intros T. induction u as [|[s|x] u IH]; intros P.
  - exists (te_identity G). split; [reflexivity|]. now apply (C159_identity dim).
  - apply proper_cons in P as [Hs P]. destruct (IH P) as (a & E & Da). cbn [evalw]. rewrite E. cbn [bind]. now apply (C159_sigma_mult dim n A r G T s u a).
  - apply proper_cons in P as [Hx P]. destruct (IH P) as (a & E & Da). cbn [evalw]. rewrite E. cbn [bind]. eexists. split; [reflexivity|]. rewrite (to_rank _ _ _ _ _ T).
    apply (C159_left_add dim n A r G T (mk_bv x r) u a P Da). split; [exact Hx|reflexivity].
Qed.
Lemma g4_means u a : forallb (ok_letterb 3 4) u = true -> evalw 32 G4 u = Ok a -> proper_word 3 4 u /\ denotes 3 g4_A 4 G4 u a.
Proof.
  intros H E. pose proof (ok_word 3 4 u H) as P. split; [exact P|]. destruct (evalw_means 32 3 g4_A 4 G4 u (proj1 G4_tits) P) as (b & E' & Db). rewrite E in E'. injection E' as ->. exact Db.
Qed.
Lemma g4_same u v : forallb (fun s => s <? 3) u = true -> forallb (fun s => s <? 3) v = true -> element g4_W u = element g4_W v -> same 3 (coxeter g4_A) u v.
Proof. intros H H' E. apply (C70_word_problem 3 g4_A g4_W u v g4_weyl); auto using over_word. Qed.
Lemma g4_shortest u w k : forallb (fun s => s <? 3) u = true -> element g4_W u = Ok w -> w_length g4_W w = Ok k -> shortest 3 (coxeter g4_A) u k.
Proof. intros H E L. destruct (C72_length 3 g4_A g4_W g4_weyl w u (over_word 3 u H) E) as (k' & L' & R). rewrite L in L'. injection L' as ->. exact R. Qed.
Lemma g4_imaginary s v w w' k : forallb (fun s => s <? 3) (s :: v) = true -> element g4_W v = Ok w -> element g4_W (s :: v) = Ok w' -> element g4_W (v ++ [nth s g4_f 0]) = Ok w' ->
  w_length g4_W w = Ok k -> w_length g4_W w' = Ok (S k) -> nth s g4_f 0 <? 3 = true -> imaginary_for 3 g4_A g4_f s v.
Proof.
  intros H E E1 E2 L L1 Q. pose proof H as H'. cbn [forallb] in H'. apply andb_prop in H' as [_ H']. split.
  - apply g4_same; [exact H| |congruence]. rewrite forallb_app, H'. cbn [forallb]. now rewrite Q.
  - intros k' R. rewrite (shortest_unique _ _ _ _ _ R (g4_shortest v w k H' E L)). now apply (g4_shortest (s :: v) w').
Qed.
Lemma G4_signs : signs_ok 3 G4 5.
Proof. intros s Hs. do 3 (destruct s as [|s]; [reflexivity|]). lia. Qed.
Lemma G4_signs2 : signs_ok 3 G4 2.
Proof. intros s Hs. do 3 (destruct s as [|s]; [reflexivity|]). lia. Qed.
Definition g4_u : list letter := [Sig 1; Tor 8; Sig 0; Sig 1; Sig 2; Tor 3; Sig 0].
Definition g4_v : list letter := [Tor 5; Sig 1; Sig 0; Sig 2; Sig 1].
Definition g4_a : telt := mk_te (mk_bv 8 4) [1; 1; 1].
Definition g4_b : telt := mk_te (mk_bv 5 4) [0; 2; 2].
Lemma g4_hyps : tits_of 32 3 g4_A 4 G4 /\ twist_ok 32 3 g4_A 4 G4 /\ signs_ok 3 G4 5 /\ (proper_word 3 4 g4_u /\ denotes 3 g4_A 4 G4 g4_u g4_a) /\ (proper_word 3 4 g4_v /\ denotes 3 g4_A 4 G4 g4_v g4_b).
Proof.
  split; [apply G4_tits|]. split; [apply G4_tits|]. split; [exact G4_signs|]. split; apply g4_means; vm_compute; reflexivity.
Qed.
Example C158_ex : tits_of 32 3 g4_A 4 G4 /\
  (proper_word 3 4 [Sig 0; Sig 1; Sig 0; Sig 1] /\ denotes 3 g4_A 4 G4 [Sig 0; Sig 1; Sig 0; Sig 1] (mk_te (mk_bv 3 4) [0; 2; 0])) /\
  (proper_word 3 4 [Sig 1; Sig 0] /\ denotes 3 g4_A 4 G4 [Sig 1; Sig 0] (mk_te (mk_bv 0 4) [0; 2; 0])) /\
  (proper_word 3 4 [Sig 1; Sig 0; Tor 6] /\ denotes 3 g4_A 4 G4 [Sig 1; Sig 0; Tor 6] (mk_te (mk_bv 3 4) [0; 2; 0])) /\
  ~ tequal 3 g4_A 4 G4 [Sig 0; Sig 1; Sig 0; Sig 1] [Sig 1; Sig 0] /\ tequal 3 g4_A 4 G4 [Sig 0; Sig 1; Sig 0; Sig 1] [Sig 1; Sig 0; Tor 6].
Proof.
  assert (T : tits_of 32 3 g4_A 4 G4) by apply G4_tits. split; [exact T|].
  assert (H1 := g4_means [Sig 0; Sig 1; Sig 0; Sig 1] (mk_te (mk_bv 3 4) [0; 2; 0]) eq_refl ltac:(vm_compute; reflexivity)).
  assert (H2 := g4_means [Sig 1; Sig 0] (mk_te (mk_bv 0 4) [0; 2; 0]) eq_refl ltac:(vm_compute; reflexivity)).
  assert (H3 := g4_means [Sig 1; Sig 0; Tor 6] (mk_te (mk_bv 3 4) [0; 2; 0]) eq_refl ltac:(vm_compute; reflexivity)).
  split; [exact H1|]. split; [exact H2|]. split; [exact H3|]. destruct H1 as [P1 M1], H2 as [P2 M2], H3 as [P3 M3]. split.
  - intros Q. apply (C158_equal 32 3 g4_A 4 G4 T _ _ _ _ P1 P2 M1 M2) in Q. discriminate.
  - now apply (C158_equal 32 3 g4_A 4 G4 T _ _ _ _ P1 P3 M1 M3).
Qed.
Example C158_shortest_ex : tits_of 32 3 g4_A 4 G4 /\ over 3 [0; 1; 0; 2] /\ over 3 [1; 0; 1; 2] /\ same 3 (coxeter g4_A) [0; 1; 0; 2] [1; 0; 1; 2] /\ shortest 3 (coxeter g4_A) [0; 1; 0; 2] 4 /\
  WeylModel.word g4_W [1; 2; 1] = Ok [0; 1; 0; 2] /\ (proper_word 3 4 g4_u /\ denotes 3 g4_A 4 G4 g4_u g4_a) /\ WeylModel.word g4_W (te_w g4_a) = Ok [0; 1; 2] /\
  inverse_word (coroot2 G4) g4_u = [Tor 3; Sig 0; Tor 3; Tor 12; Sig 2; Tor 6; Sig 1; Tor 3; Sig 0; Tor 8; Tor 6; Sig 1].
Proof.
  split; [apply G4_tits|]. split; [now apply over_word|]. split; [now apply over_word|]. split; [apply g4_same; vm_compute; reflexivity|].
  split; [apply (g4_shortest _ [1; 2; 1]); vm_compute; reflexivity|]. split; [vm_compute; reflexivity|]. split; [apply g4_hyps|]. vm_compute. auto.
Qed.
Example C159_ex : tits_of 32 3 g4_A 4 G4 /\ twist_ok 32 3 g4_A 4 G4 /\ (proper_word 3 4 g4_u /\ denotes 3 g4_A 4 G4 g4_u g4_a) /\ (proper_word 3 4 g4_v /\ denotes 3 g4_A 4 G4 g4_v g4_b) /\
  sigma_mult 32 G4 0 g4_a = Ok (mk_te (mk_bv 11 4) [0; 1; 1]) /\ sigma_inv_mult 32 G4 0 g4_a = Ok (mk_te (mk_bv 8 4) [0; 1; 1]) /\
  mult_sigma 32 G4 g4_a 2 = Ok (mk_te (mk_bv 1 4) [1; 1; 0]) /\ mult_sigma_inv 32 G4 g4_a 2 = Ok (mk_te (mk_bv 8 4) [1; 1; 0]) /\
  prod 32 G4 g4_a g4_b = Ok (mk_te (mk_bv 4 4) [0; 0; 3]) /\ right_torus_part 32 G4 g4_a = Ok (mk_bv 4 4) /\
  right_add 32 G4 g4_a (mk_bv 1 4) = Ok (mk_te (mk_bv 10 4) [1; 1; 1]) /\ left_add (mk_bv 1 4) g4_a = mk_te (mk_bv 9 4) [1; 1; 1] /\
  te_right 32 G4 [1; 1; 1] (mk_bv 1 4) = Ok (mk_te (mk_bv 2 4) [1; 1; 1]) /\
  sigma_conjugate 32 G4 g4_a 0 = Ok (mk_te (mk_bv 14 4) [0; 2; 1]) /\ sigma_inv_conjugate 32 G4 g4_a 0 = Ok (mk_te (mk_bv 8 4) [0; 2; 1]) /\
  twistedConjugate 32 G4 g4_a 0 = Ok (mk_te (mk_bv 11 4) [0; 1; 0]) /\ inverseTwistedConjugate 32 G4 g4_a 0 = Ok (mk_te (mk_bv 2 4) [0; 1; 0]).
Proof. destruct g4_hyps as (H1 & H2 & _ & H3 & H4). do 2 (split; [assumption|]). do 2 (split; [assumption|]). vm_compute. auto 20. Qed.
Example C160_ex : tits_of 32 3 g4_A 4 G4 /\ twist_ok 32 3 g4_A 4 G4 /\ signs_ok 3 G4 5 /\ (proper_word 3 4 g4_u /\ denotes 3 g4_A 4 G4 g4_u g4_a) /\ (proper_word 3 4 g4_v /\ denotes 3 g4_A 4 G4 g4_v g4_b) /\
  te_twisted 32 G4 5 g4_a = Ok (mk_te (mk_bv 4 4) [0; 0; 3]) /\ is_valid 32 G4 5 g4_a = Ok false /\ is_valid 32 G4 5 g4_b = Ok true /\ is_valid 32 G4 0 g4_b = Ok false /\
  strict_conjugate 32 G4 5 g4_b 1 = Ok (mk_te (mk_bv 5 4) [1; 0; 1]) /\ basedTwistedConjugate 32 G4 5 g4_b 1 = Ok (mk_te (mk_bv 5 4) [1; 0; 1]) /\
  basedTwistedConjugate_word 32 G4 5 g4_b [0; 1] = Ok (mk_te (mk_bv 5 4) [1; 0; 1]) /\ word_basedTwistedConjugate 32 G4 5 [0; 1] g4_b = Ok (mk_te (mk_bv 6 4) [0; 0; 0]).
Proof. destruct g4_hyps as (H1 & H2 & H0 & H3 & H4). do 3 (split; [assumption|]). do 2 (split; [assumption|]). vm_compute. auto 20. Qed.
(** a compact imaginary generator, and a noncompact one *)
Example C161_ex : tits_of 32 3 g4_A 4 G4 /\ twist_ok 32 3 g4_A 4 G4 /\ signs_ok 3 G4 5 /\ (proper_word 3 4 g4_v /\ denotes 3 g4_A 4 G4 g4_v g4_b) /\
  (exists v, over 3 v /\ element g4_W v = Ok (te_w g4_b) /\ imaginary_for 3 g4_A (tg_twist G4) 0 v) /\
  simple_grading 32 G4 5 g4_b 0 = Ok false /\ compact_simples 32 G4 5 g4_b 7 = Ok 5%N /\ strict_conjugate 32 G4 5 g4_b 0 = Ok g4_b /\
  Cayley_transform 32 G4 g4_b 0 = Ok (mk_te (mk_bv 6 4) [1; 2; 2]) /\ is_valid 32 G4 5 (mk_te (mk_bv 6 4) [1; 2; 2]) = Ok false /\ coroot2 G4 0 = 3%N.
Proof.
  destruct g4_hyps as (H1 & H2 & H0 & H3 & H4). do 3 (split; [assumption|]). split; [assumption|]. split.
  - exists [1; 0; 2; 1]. split; [now apply over_word|]. split; [vm_compute; reflexivity|]. apply (g4_imaginary 0 [1; 0; 2; 1] [0; 2; 2] [1; 2; 2] 4); vm_compute; reflexivity.
  - vm_compute. auto 20.
Qed.
Example C161_noncompact_ex : signs_ok 3 G4 2 /\ (proper_word 3 4 [Tor 9] /\ denotes 3 g4_A 4 G4 [Tor 9] (mk_te (mk_bv 9 4) [0; 0; 0])) /\
  (exists v, over 3 v /\ element g4_W v = Ok [0; 0; 0] /\ imaginary_for 3 g4_A (tg_twist G4) 1 v) /\
  noncompact 4 G4 2 1 (mk_te (mk_bv 9 4) [0; 0; 0]) = true /\ is_valid 32 G4 2 (mk_te (mk_bv 9 4) [0; 0; 0]) = Ok true /\
  strict_conjugate 32 G4 2 (mk_te (mk_bv 9 4) [0; 0; 0]) 1 = Ok (mk_te (mk_bv 15 4) [0; 0; 0]) /\
  Cayley_transform 32 G4 (mk_te (mk_bv 9 4) [0; 0; 0]) 1 = Ok (mk_te (mk_bv 9 4) [0; 1; 0]) /\ is_valid 32 G4 2 (mk_te (mk_bv 9 4) [0; 1; 0]) = Ok true /\
  inverse_Cayley_transform 32 G4 2 (mk_te (mk_bv 9 4) [0; 1; 0]) 1 [mk_bv 6 4; mk_bv 4 4] = Ok (mk_te (mk_bv 9 4) [0; 0; 0]) /\
  sigma_inv_mult 32 G4 1 (mk_te (mk_bv 11 4) [0; 1; 0]) = Ok (mk_te (mk_bv 13 4) [0; 0; 0]) /\
  inverse_Cayley_transform 32 G4 2 (mk_te (mk_bv 11 4) [0; 1; 0]) 1 [mk_bv 6 4; mk_bv 4 4] = Ok (mk_te (mk_bv 9 4) [0; 0; 0]).
Proof.
  split; [exact G4_signs2|]. split; [apply g4_means; vm_compute; reflexivity|]. split.
  - exists []. split; [now apply over_word|]. split; [vm_compute; reflexivity|]. apply (g4_imaginary 1 [] [0; 0; 0] [0; 1; 0] 0); vm_compute; reflexivity.
  - vm_compute. auto 20.
Qed.

Print Assumptions C157_root_datum.
Print Assumptions C157_adjoint.
Print Assumptions C157_reflect.
Print Assumptions C157_across.
Print Assumptions C157_involution.
Print Assumptions C158_total.
Print Assumptions C158_equal.
Print Assumptions C158_value.
Print Assumptions C158_normal.
Print Assumptions C158_shortest.
Print Assumptions C158_inverse.
Print Assumptions C159_identity.
Print Assumptions C159_of_torus.
Print Assumptions C159_of_weyl.
Print Assumptions C159_right.
Print Assumptions C159_right_part.
Print Assumptions C159_left_add.
Print Assumptions C159_right_add.
Print Assumptions C159_sigma_mult.
Print Assumptions C159_sigma_inv_mult.
Print Assumptions C159_mult_sigma.
Print Assumptions C159_mult_sigma_inv.
Print Assumptions C159_product.
Print Assumptions C159_conjugate.
Print Assumptions C159_inv_conjugate.
Print Assumptions C159_twisted.
Print Assumptions C159_inverse_twisted.
Print Assumptions C160_twisted.
Print Assumptions C160_valid.
Print Assumptions C160_strict.
Print Assumptions C160_cross.
Print Assumptions C160_cross_word.
Print Assumptions C161_grading.
Print Assumptions C161_compact.
Print Assumptions C161_imaginary.
Print Assumptions C161_Cayley.
Print Assumptions C161_back.
Print Assumptions C161_inverse_Cayley.
