(** Gradings at roots: the loop follows the conjugation of the root to a simple one. *)

From Coq Require Import List Arith NArith ZArith Bool Lia.
From Verif Require Import RunModel VecModel F2Model F2Spec F2Proofs WeylModel WeylSpec WeylExchange RootModel RootSpec RootTop RootProps RsfModel RsfProps TgModel TgSpec TgSem TgMath TgCoset TgProps TnModel.
Import ListNotations.
Open Scope nat_scope.

Section Loop.
Variables (dim : nat) (G : tits_group) (g : N) (rs : rootsys).
Notation c1 := (fun '(a, w) => run i <- find_descent rs a; Ok (negb (a =? pos_nr (num_pos rs) i))).
Notation b1 := (fun '(a, w) => run i <- find_descent rs a; run b <- simple_reflected rs i a; Ok (b, w ++ [i])).
Notation c2 := (fun '(alpha, a) => run s <- find_descent rs alpha; Ok (negb (alpha =? pos_nr (num_pos rs) s))).
Notation b2 := (fun '(alpha, a) => run s <- find_descent rs alpha; run b <- basedTwistedConjugate dim G g a s; run beta <- simple_reflected rs s alpha; Ok (beta, b)).
Lemma conj_cons i w a : basedTwistedConjugate_word dim G g a (i :: w) = run b <- basedTwistedConjugate dim G g a i; basedTwistedConjugate_word dim G g b w.
Proof.
  unfold basedTwistedConjugate_word, each_comp. cbn [fold_left bind]. destruct (basedTwistedConjugate dim G g a i) as [b|e]; [reflexivity|]. cbn [bind].
  induction w as [|j w IH]; [reflexivity|exact IH].
Qed.
Lemma prefix k : forall a w0 a' w', loop k c1 b1 (a, w0) = Ok (a', w') -> exists v, w' = w0 ++ v.
Proof.
  induction k as [|k IH]; intros a w0 a' w' E; cbn [loop] in E; destruct (find_descent rs a) as [i|e] eqn:F; try discriminate; cbn [bind] in E; destruct (negb _).
  - discriminate.
  - injection E as <- <-. exists []. now rewrite app_nil_r.
  - cbn [bind] in E. destruct (simple_reflected rs i a) as [b|e]; [|discriminate]. cbn [bind] in E. destruct (IH _ _ _ _ E) as (v & ->). exists (i :: v). now rewrite <- app_assoc.
  - injection E as <- <-. exists []. now rewrite app_nil_r.
Qed.
Lemma follow k : forall a w0 a' v t T, loop k c1 b1 (a, w0) = Ok (a', w0 ++ v) -> basedTwistedConjugate_word dim G g t v = Ok T -> loop k c2 b2 (a, t) = Ok (a', T).
Proof.
  induction k as [|k IH]; intros a w0 a' v t T E C; cbn [loop] in E |- *; destruct (find_descent rs a) as [i|e] eqn:F; try discriminate; cbn [bind] in E |- *; destruct (negb _).
  - discriminate.
  - injection E as <- E. rewrite <- (app_nil_r w0) in E at 1. apply app_inv_head in E. subst v. injection C as <-. reflexivity.
  - cbn [bind] in E |- *. destruct (simple_reflected rs i a) as [b|e]; [|discriminate]. cbn [bind] in E. destruct (prefix _ _ _ _ _ E) as (x & Ex). rewrite <- app_assoc in Ex. apply app_inv_head in Ex. subst v.
    change ([i] ++ x) with (i :: x) in *. rewrite conj_cons in C. destruct (basedTwistedConjugate dim G g t i) as [t1|e]; [|discriminate]. cbn [bind] in C |- *.
    apply (IH b (w0 ++ [i]) a' x t1 T); [rewrite <- app_assoc; exact E|exact C].
  - injection E as <- E. rewrite <- (app_nil_r w0) in E at 1. apply app_inv_head in E. subst v. injection C as <-. reflexivity.
Qed.
Lemma grading_follows a alpha i w b : conjugate_to_simple rs alpha = Ok (i, w) -> basedTwistedConjugate_word dim G g a w = Ok b ->
  coset_grading dim G g rs a alpha = simple_grading dim G g b i.
Proof.
  unfold conjugate_to_simple, coset_grading. intros E C. destruct (loop (num_roots rs) c1 b1 (make_positive rs alpha, [])) as [[a' w']|e] eqn:L; [|discriminate]. cbn [bind] in E.
  destruct (find_descent rs a') as [j|e] eqn:F; [|discriminate]. cbn [bind] in E. injection E as -> ->.
  rewrite (follow _ _ [] a' w a b L C). cbn [bind]. rewrite F. reflexivity.
Qed.
End Loop.

Section Elements.
Variables (dim n : nat) (A : nat -> nat -> Z) (r : nat) (G : tits_group).
Hypothesis T : tits_of dim n A r G.
Hypothesis K : twist_ok dim n A r G.
Hypothesis ND : n <= dim.
Variable g : N.
Hypothesis SG : signs_ok n G g.
Notation word_ok := (proper_word n r).
Notation "u ~~ v" := (tequal n A r G u v) (at level 70).
Notation means := (denotes n A r G).
Notation cj := (TgSem.conjugate G g).
Notation inv := (inverse_word (coroot2 G)).
Notation act := (act2 r (root2 G) (coroot2 G)).
Notation tw := (twisted_word G g).
Lemma tw_eq u v : word_ok u -> word_ok v -> u ~~ v -> tw u ~~ tw v.
Proof.
  intros Pu Pv E. destruct (C158_total dim n A r G T u Pu) as (a & Ma & _). destruct (C158_total dim n A r G T v Pv) as (b & Mb & _).
  assert (Q : a = b) by (apply (C158_equal dim n A r G T u v a b Pu Pv Ma Mb); exact E). subst b.
  destruct (C160_twisted dim n A r G T K ND g u a Pu Ma) as (x & Ex & Mx). destruct (C160_twisted dim n A r G T K ND g v a Pv Mb) as (y & Ey & My).
  rewrite Ex in Ey. injection Ey as <-. apply (C158_equal dim n A r G T _ _ x x (ok_twisted dim n A r G T K g u Pu) (ok_twisted dim n A r G T K g v Pv) Mx My). reflexivity.
Qed.
Lemma push_all q x y : word_ok q -> within r x -> q ++ Tor x :: y ~~ Tor (act (sigs q) x) :: q ++ y.
Proof.
  revert x. induction q as [|[s|z] q IH]; intros x P X; [apply ts_refl| |]; apply (proper_cons n r) in P; destruct P as [P1 P2]; cbn [app sigs flat_map].
  - eapply ts_trans; [apply ts_cons; apply IH; assumption|]. apply ts_pass; [exact P1|]. apply (act_within n r (root2 G) (coroot2 G) (coroots_within dim n A r G T)); [apply (proper_ok n r q P2)|exact X].
  - eapply ts_trans; [apply ts_cons; apply IH; assumption|]. assert (Z1 : within r (act (sigs q) x)) by (apply (act_within n r (root2 G) (coroot2 G) (coroots_within dim n A r G T)); [apply (proper_ok n r q P2)|exact X]).
    eapply ts_trans; [apply ts_merge; [exact P1|exact Z1]|]. rewrite N.lxor_comm. apply ts_sym. apply ts_merge; [exact Z1|exact P1].
Qed.
Lemma sigs_inv q : sigs (inv q) = rev (sigs q).
Proof. induction q as [|[s|z] q IH]; [reflexivity| |]; cbn [inverse_word]; rewrite sigs_app, IH; cbn; [reflexivity|now rewrite app_nil_r]. Qed.
Lemma sigs_cross w : sigs (flat_map (cross_by G g) w) = w.
Proof. induction w as [|s w IH]; [reflexivity|]. cbn [flat_map]. rewrite sigs_app, IH. unfold cross_by. destruct (coord g s); reflexivity. Qed.
Lemma cj_app v v' u : cj v (cj v' u) = cj (v ++ v') u.
Proof. apply (conj_app (coroot2 G) (fun s => nth s (tg_twist G) 0) (image_of (cols (tg_inv G))) (coord g) v v' u). Qed.
Lemma cj_eq v u u' : u ~~ u' -> cj v u ~~ cj v u'.
Proof. intros E. unfold TgSem.conjugate. apply ts_app_l, ts_app_r, E. Qed.
Lemma cj_back v u : word_ok v -> word_ok u -> cj (inv v ++ v) u ~~ u.
Proof.
  intros Pv Pu. destruct (C158_inverse dim n A r G T v Pv) as (Pi & _ & E2). destruct (C158_inverse dim n A r G T _ Pi) as (Pii & E3 & _).
  unfold TgSem.conjugate. rewrite inv_app. eapply ts_trans; [apply ts_app; [exact E2|]; apply ts_app_l; apply (tw_eq (inv v ++ inv (inv v)) []); [apply ok_app; assumption|intros x []|exact E3]|].
  cbn. rewrite app_nil_r. apply ts_refl.
Qed.
(** the change of an element by the representative of a reflection, when this becomes the change by a simple one *)
Lemma change w i u a b : word_ok u -> means u a -> over n w -> i < n -> basedTwistedConjugate_word dim G g a w = Ok b ->
  (exists v, over n v /\ element (tg_W G) v = Ok (te_w b) /\ imaginary_for n A (tg_twist G) i v) ->
  let P := flat_map (cross_by G g) (rev w) in
  cj (inv P ++ cross_by G g i ++ P) u ~~ Tor (if noncompact r G g i b then act w (coroot2 G i) else 0%N) :: u.
Proof.
  intros Pu Da O Hi E IM P. destruct (proj1 (C160_cross_word dim n A r G T K ND g SG w u a Pu Da O)) as (b' & E' & Db & _). rewrite E in E'. injection E' as <-. fold P in Db.
  assert (PP : word_ok P) by (apply (ok_crosses dim n A r G T g); intros x Hx; apply O; apply in_rev; exact Hx). assert (PI : word_ok (inv P)) by (apply (C158_inverse dim n A r G T P PP)).
  assert (Pc : word_ok (cj P u)) by now apply (ok_conjugate dim n A r G T K g).
  destruct (C161_imaginary dim n A r G T K ND g SG _ b i Pc Db Hi IM) as [_ Q]. destruct (C160_cross dim n A r G T K ND g SG i _ b Pc Db Hi) as (b1 & Eb1 & Db1 & _). rewrite Q in Eb1. injection Eb1 as <-.
  set (c := if noncompact r G g i b then coroot2 G i else 0%N) in *. assert (Wc : within r c) by (unfold c; destruct (noncompact r G g i b); [now apply (coroots_within dim n A r G T)|intros k Hk; apply N.bits_0]).
  assert (Sc : sized r (mk_bv c r)) by (split; [exact Wc|reflexivity]).
  pose proof (C159_left_add dim n A r G T (mk_bv c r) _ b Pc Db Sc) as L. cbn [data] in L.
  assert (X : cj (cross_by G g i) (cj P u) ~~ Tor c :: cj P u).
  { refine (proj1 (proj2 (C158_equal dim n A r G T _ _ _ _ _ _ Db1 L)) _); [apply (ok_conjugate dim n A r G T K g); [now apply (ok_cross dim n A r G T g)|exact Pc]|apply ok_cons; [exact Wc|exact Pc]|].
    unfold left_add, bv_add. cbn [data]. destruct Db as (v & _ & _ & _ & (_ & Bs) & _). rewrite Bs. reflexivity. }
  rewrite <- (cj_app (inv P)), <- (cj_app (cross_by G g i)). eapply ts_trans; [apply cj_eq; exact X|]. unfold TgSem.conjugate at 1. cbn [app].
  eapply ts_trans; [apply push_all; [exact PI|exact Wc]|]. rewrite sigs_inv. unfold P at 1. rewrite sigs_cross, rev_involutive.
  replace (act w c) with (if noncompact r G g i b then act w (coroot2 G i) else 0%N).
  - apply ts_cons. change (inv P ++ cj P u ++ tw (inv (inv P))) with (cj (inv P) (cj P u)). rewrite cj_app. now apply cj_back.
  - unfold c. destruct (noncompact r G g i b); [reflexivity|]. symmetry. clear. induction w as [|s w IH]; [reflexivity|]. cbn [act2 fold_right]. unfold act2 in IH. rewrite IH. unfold reflect2. now rewrite TgMath.scalar_0_r.
Qed.
End Elements.
