(** Tits groups: conjugation by the base element of the coset *)

From Coq Require Import List Arith NArith ZArith Lia Bool.
From Verif Require Import VecModel VecProofs RunModel RunProofs MatSpec MatLin F2Model F2Spec F2Basics F2Proofs F2Solve F2Ops WeylModel WeylSpec TwistSpec TwistModel
  WeylTable WeylCheck WeylExchange WeylGroup WeylOps WeylMore WeylMake WeylExt WeylSign TwistProofs TgModel TgSpec TgSem TgMath.
Import ListNotations.
Open Scope nat_scope.

Ltac xors := apply coord_ext; intros i; rewrite ?coord_lxor; repeat match goal with |- context [coord ?x i] => destruct (coord x i) end; reflexivity.

Section Coset.
Variables (n : nat) (A : nat -> nat -> Z) (r : nat) (rt co : nat -> N).
Hypothesis CA : Cartan_like n A.
Hypothesis PAIR : forall s t, s < n -> t < n -> scalar r (rt s) (co t) = Z.odd (A s t).
Hypothesis WR : forall s, s < n -> within r (co s).
Variables (f : nat -> nat) (d : N -> N) (g : nat -> bool).
Hypothesis F_lt : forall s, s < n -> f s < n.
Hypothesis F_inv : forall s, s < n -> f (f s) = s.
Hypothesis F_A : forall s t, s < n -> t < n -> A (f s) (f t) = A s t.
Hypothesis d_lin : forall x y, d (N.lxor x y) = N.lxor (d x) (d y).
Hypothesis d_0 : d 0 = 0%N.
Hypothesis d_within : forall x, within r x -> within r (d x).
Hypothesis d_inv : forall x, within r x -> d (d x) = x.
Hypothesis d_co : forall s, s < n -> d (co s) = co (f s).
Hypothesis d_rt : forall s x, s < n -> within r x -> scalar r (rt (f s)) (d x) = scalar r (rt s) x.
Notation "u ~ v" := (same n (coxeter A) u v) (at level 70).
Notation refl := (reflect2 r rt co).
Notation act := (act2 r rt co).
Notation ts := (tsame n (coxeter A) r rt co).
Notation tw := (twist_word co f d g).
Notation proper := (proper_word n r).
Notation gm := (fun s => if g s then co s else 0%N).

Lemma tw_app u v : tw (u ++ v) = tw u ++ tw v.
Proof. unfold twist_word. now rewrite flat_map_app. Qed.
Lemma gm_within s : s < n -> within r (gm s).
Proof. intros Hs. cbn. destruct (g s); [now apply WR|apply within_0]. Qed.
Lemma tw_sig s : s < n -> ts (tw [Sig s]) [Sig (f s); Tor (gm (f s))].
Proof.
  intros Hs. unfold twist_word. cbn [flat_map twist_letter app]. destruct (g (f s)); cbn [app]; [apply ts_refl|]. apply ts_sym. apply (ts_app_l n A r rt co [Sig (f s)] [Tor 0%N] []). apply ts_one.
Qed.
Lemma refl_gm s : s < n -> refl s (gm s) = gm s.
Proof. intros Hs. cbn. destruct (g s); [now apply (refl_own n A)|apply refl_0]. Qed.
Lemma d_refl s x : s < n -> within r x -> d (refl s x) = refl (f s) (d x).
Proof. intros Hs Hx. unfold reflect2. rewrite d_rt by auto. destruct (scalar r (rt s) x); [|auto]. now rewrite d_lin, d_co. Qed.
Fixpoint tacc (u : list nat) : N := match u with [] => 0%N | s :: u => N.lxor (refl s (tacc u)) (gm s) end.
Lemma tacc_within u : over n u -> within r (tacc u).
Proof. induction u as [|s u IH]; intros O; [apply within_0|]. apply over_cons in O. destruct O as [Hs O]. cbn [tacc]. apply within_lxor; [apply (refl_within n r rt co WR); auto|now apply gm_within]. Qed.
Lemma over_f u : over n u -> over n (map f u).
Proof. intros O s I. apply in_map_iff in I. destruct I as (t & <- & I). apply F_lt, O, I. Qed.
Lemma tw_sigs u : over n u -> ts (tw (map Sig u)) (Tor (tacc (map f u)) :: map Sig (map f u)).
Proof.
  induction u as [|s u IH]; intros O; [apply ts_sym, ts_zero|]. apply over_cons in O. destruct O as [Hs O]. cbn [map]. change (Sig s :: map Sig u) with ([Sig s] ++ map Sig u). rewrite tw_app.
  pose proof (tacc_within _ (over_f u O)) as B. pose proof (gm_within (f s) (F_lt s Hs)) as B2.
  eapply ts_trans; [apply ts_app; [now apply tw_sig|now apply IH]|]. cbn [app].
  eapply ts_trans; [apply ts_cons, ts_merge; auto|]. eapply ts_trans; [apply ts_pass; [auto|now apply within_lxor]|]. cbn [tacc]. rewrite refl_lin, refl_gm by auto. rewrite N.lxor_comm. apply ts_refl.
Qed.
Lemma tacc_alt k : forall s t, s < n -> t < n -> tacc (alt k s t) = comb co s t (bref k (Z.odd (A s t)) (Z.odd (A t s)) (g s) (g t)).
Proof.
  induction k as [|k IH]; intros s t Hs Ht; [reflexivity|]. cbn [alt tacc bref]. rewrite IH by auto. destruct (bref k _ _ _ _) as [b a]. rewrite comb_swap, (refl_comb n A r rt co CA PAIR) by auto.
  unfold comb. cbn [fst snd]. rewrite !if_xorb. xors.
Qed.
Lemma map_alt k : forall s t, map f (alt k s t) = alt k (f s) (f t).
Proof. induction k as [|k IH]; intros s t; [auto|]. cbn [alt map]. now rewrite IH. Qed.
Lemma over_alt k : forall s t, s < n -> t < n -> over n (alt k s t).
Proof. induction k as [|k IH]; intros s t Hs Ht; [apply over_nil|]. cbn [alt]. apply over_cons. auto. Qed.
(** conjugation is well defined *)
Theorem tw_same u v : ts u v -> ts (tw u) (tw v).
Proof.
  induction 1 as [u|u v H IH|u v w H1 IH1 H2 IH2|u u' v v' H1 IH1 H2 IH2|s Hs|s t Hs Ht Hn| |x y Hx Hy|s x Hs Hx].
  - apply ts_refl.
  - now apply ts_sym.
  - eapply ts_trans; eauto.
  - rewrite !tw_app. now apply ts_app.
  - eapply ts_trans; [apply (tw_sigs [s; s]); intros x [<-|[<-|[]]]; auto|]. cbn [map tacc]. pose proof (F_lt s Hs) as Hf. rewrite refl_0, N.lxor_0_l, refl_gm, N.lxor_nilpotent by auto.
    eapply ts_trans; [apply ts_zero|]. unfold twist_word. cbn [flat_map twist_letter app]. rewrite d_co by auto. now apply ts_square.
  - pose proof (F_lt s Hs) as Hfs. pose proof (F_lt t Ht) as Hft. assert (Nf : f s <> f t) by (intros E; apply Hn; rewrite <- (F_inv s Hs), <- (F_inv t Ht); now rewrite E).
    eapply ts_trans; [apply tw_sigs, over_alt; auto|]. apply ts_sym. eapply ts_trans; [apply tw_sigs, over_alt; auto|]. apply ts_sym. rewrite !map_alt.
    assert (CX : coxeter A s t = coxeter A (f s) (f t)) by (unfold coxeter; now rewrite !F_A).
    rewrite CX. rewrite !tacc_alt by auto. pose proof (proj2 CA (f s) (f t) Hfs Hft Nf) as FP. pose proof (bref_braid _ _ (g (f s)) (g (f t)) FP) as BB. unfold coxeter.
    destruct (bref _ (Z.odd (A (f s) (f t))) _ _ _) as [a b]. rewrite BB, comb_swap. apply ts_cons. now apply (ts_braid n (coxeter A)).
  - unfold twist_word. cbn [flat_map twist_letter app]. rewrite d_0. apply ts_one.
  - unfold twist_word. cbn [flat_map twist_letter app]. rewrite d_lin. apply ts_add; auto.
  - change [Sig s; Tor x] with ([Sig s] ++ [Tor x]). change [Tor (refl s x); Sig s] with ([Tor (refl s x)] ++ [Sig s]). rewrite !tw_app. pose proof (F_lt s Hs) as Hf. pose proof (gm_within (f s) Hf) as Bg.
    eapply ts_trans; [apply ts_app_r, tw_sig; auto|]. apply ts_sym. eapply ts_trans; [apply ts_app_l, tw_sig; auto|]. apply ts_sym.
    unfold twist_word. cbn [flat_map twist_letter app]. rewrite d_refl by auto.
    eapply ts_trans; [apply ts_cons, ts_add; auto|]. rewrite N.lxor_comm.
    eapply ts_trans; [apply ts_cons; apply ts_sym, ts_add; auto|]. now apply ts_pass; auto.
Qed.
Lemma tw_proper u : proper u -> proper (tw u).
Proof.
  induction u as [|[s|x] u IH]; intros P; [intros a []| |]; apply proper_cons in P; destruct P as [P1 P2]; cbn in P1; specialize (IH P2).
  - change (tw (Sig s :: u)) with (twist_letter co f d g (Sig s) ++ tw u). apply proper_app. split; [|auto]. cbn [twist_letter]. destruct (g (f s)); intros a I; cbn in I.
    + destruct I as [<-|[<-|[]]]; cbn; auto.
    + destruct I as [<-|[]]; cbn; auto.
  - change (tw (Tor x :: u)) with (Tor (d x) :: tw u). apply proper_cons. split; [cbn; auto|auto].
Qed.
(** inverses *)
Lemma ts_sig_inv s : s < n -> ts [Sig s; Tor (co s)] (sig_inv co s).
Proof. intros Hs. eapply ts_trans; [apply ts_commute; [auto|now apply WR]|]. rewrite (refl_own n A r rt co CA PAIR s Hs). apply ts_refl. Qed.
Lemma inv_sig_r s : s < n -> ts ([Sig s] ++ sig_inv co s) [].
Proof.
  intros Hs. unfold sig_inv. cbn [app]. eapply ts_trans; [apply ts_pass; [auto|now apply WR]|]. rewrite (refl_own n A r rt co CA PAIR s Hs).
  eapply ts_trans; [apply ts_cons; now apply ts_square|]. eapply ts_trans; [apply ts_add; now apply WR|]. rewrite N.lxor_nilpotent. apply ts_one.
Qed.
Lemma inv_sig_l s : s < n -> ts (sig_inv co s ++ [Sig s]) [].
Proof.
  intros Hs. unfold sig_inv. cbn [app]. eapply ts_trans; [apply ts_cons; now apply ts_square|]. eapply ts_trans; [apply ts_add; now apply WR|]. rewrite N.lxor_nilpotent. apply ts_one.
Qed.
Lemma inv_app u v : inverse_word co (u ++ v) = inverse_word co v ++ inverse_word co u.
Proof. induction u as [|[s|x] u IH]; cbn [inverse_word app]; [now rewrite app_nil_r| |]; rewrite IH; now rewrite app_assoc. Qed.
Lemma inv_tor x : within r x -> ts [Tor x; Tor x] [].
Proof. intros B. eapply ts_trans; [now apply ts_add|]. rewrite N.lxor_nilpotent. apply ts_one. Qed.
Theorem inv_r u : proper u -> ts (u ++ inverse_word co u) [].
Proof.
  induction u as [|[s|x] u IH]; intros P; [apply ts_refl| |]; apply proper_cons in P; destruct P as [P1 P2]; cbn in P1; specialize (IH P2); cbn [inverse_word app].
  - change (Sig s :: u ++ inverse_word co u ++ sig_inv co s) with ([Sig s] ++ u ++ inverse_word co u ++ sig_inv co s). rewrite (app_assoc u).
    eapply ts_trans; [apply ts_app_l, ts_app_r, IH|]. now apply inv_sig_r.
  - change (Tor x :: u ++ inverse_word co u ++ [Tor x]) with ([Tor x] ++ u ++ inverse_word co u ++ [Tor x]). rewrite (app_assoc u).
    eapply ts_trans; [apply ts_app_l, ts_app_r, IH|]. now apply inv_tor.
Qed.
Theorem inv_l u : proper u -> ts (inverse_word co u ++ u) [].
Proof.
  induction u as [|[s|x] u IH]; intros P; [apply ts_refl| |]; apply proper_cons in P; destruct P as [P1 P2]; cbn in P1; specialize (IH P2); cbn [inverse_word].
  - rewrite <- app_assoc. eapply ts_trans; [|exact IH]. apply ts_app_l. apply (ts_app_r n A r rt co u (sig_inv co s ++ [Sig s]) []). now apply inv_sig_l.
  - rewrite <- app_assoc. eapply ts_trans; [|exact IH]. apply ts_app_l. apply (ts_app_r n A r rt co u [Tor x; Tor x] []). now apply inv_tor.
Qed.
Lemma inv_proper u : proper u -> proper (inverse_word co u).
Proof.
  induction u as [|[s|x] u IH]; intros P; [intros a []| |]; apply proper_cons in P; destruct P as [P1 P2]; cbn in P1; specialize (IH P2); cbn [inverse_word]; apply proper_app; split; auto.
  - intros a [<-|[<-|[]]]; cbn; auto.
  - intros a [<-|[]]; cbn; auto.
Qed.
(** conjugating twice *)
Hypothesis g_f : forall s, s < n -> g (f s) = g s.
Lemma tw_sig2 s : s < n -> ts (tw (tw [Sig s])) [Sig s].
Proof.
  intros Hs. eapply ts_trans; [apply tw_same, tw_sig; auto|]. change (ts (tw ([Sig (f s)] ++ [Tor (gm (f s))])) [Sig s]). rewrite tw_app. cbv beta. pose proof (F_lt s Hs) as Hf.
  eapply ts_trans; [apply ts_app_r, tw_sig; auto|]. rewrite F_inv by auto. unfold twist_word. cbn [flat_map twist_letter app].
  replace (d (if g (f s) then co (f s) else 0%N)) with (gm s).
  - pose proof (gm_within s Hs) as B. eapply ts_trans; [apply ts_cons, ts_add; auto|]. rewrite N.lxor_nilpotent. eapply ts_trans; [apply ts_cons, ts_one|]. apply ts_refl.
  - cbn. rewrite g_f by auto. destruct (g s); [now rewrite d_co, F_inv by auto|now rewrite d_0].
Qed.
Theorem tw_twice u : proper u -> ts (tw (tw u)) u.
Proof.
  induction u as [|[s|x] u IH]; intros P; [apply ts_refl| |]; apply proper_cons in P; destruct P as [P1 P2]; cbn in P1; specialize (IH P2).
  - change (Sig s :: u) with ([Sig s] ++ u). rewrite !tw_app. apply ts_app; [now apply tw_sig2|auto].
  - change (Tor x :: u) with ([Tor x] ++ u). rewrite !tw_app. apply ts_app; [|auto]. unfold twist_word. cbn [flat_map twist_letter app]. rewrite d_inv by auto. apply ts_refl.
Qed.
(** conjugates of elements of the coset *)
Definition conj (v u : list letter) : list letter := v ++ u ++ tw (inverse_word co v).
Definition valid (u : list letter) : Prop := ts (u ++ tw u) [].
Lemma valid_same u v : ts u v -> valid u -> valid v.
Proof. intros E H. unfold valid in *. eapply ts_trans; [|exact H]. apply ts_sym, ts_app; [auto|now apply tw_same]. Qed.
Lemma conj_app v v' u : conj v (conj v' u) = conj (v ++ v') u.
Proof. unfold conj. rewrite inv_app, tw_app. now rewrite <- !app_assoc. Qed.
Lemma conj_same v u u' : ts u u' -> ts (conj v u) (conj v u').
Proof. intros E. unfold conj. apply ts_app_l, ts_app_r, E. Qed.
Theorem conj_valid v u : proper v -> valid u -> valid (conj v u).
Proof.
  intros P H. unfold valid, conj. rewrite !tw_app.
  assert (E1 : ts (tw (inverse_word co v) ++ tw v) []) by (rewrite <- tw_app; apply (tw_same _ []); now apply inv_l).
  pose proof (tw_twice _ (inv_proper v P)) as E2.
  replace ((v ++ u ++ tw (inverse_word co v)) ++ tw v ++ tw u ++ tw (tw (inverse_word co v)))
    with (v ++ u ++ (tw (inverse_word co v) ++ tw v) ++ tw u ++ tw (tw (inverse_word co v))) by (now rewrite <- !app_assoc).
  eapply ts_trans; [apply ts_app_l, ts_app_l, ts_app_r, E1|]. cbn [app]. rewrite (app_assoc u).
  eapply ts_trans; [apply ts_app_l, ts_app_r, H|]. cbn [app]. eapply ts_trans; [apply ts_app_l, E2|]. now apply inv_r.
Qed.
End Coset.

(** *** generators commuting with the Weyl part *)
Section Imaginary.
Variables (n : nat) (A : nat -> nat -> Z) (r : nat) (rt co : nat -> N).
Hypothesis CA : Cartan_like n A.
Hypothesis PAIR : forall s t, s < n -> t < n -> scalar r (rt s) (co t) = Z.odd (A s t).
Hypothesis WR : forall s, s < n -> within r (co s).
Variable ell : list nat -> nat.
Hypothesis ELL : forall u, over n u -> shortest n (coxeter A) u (ell u).
Variables (f : nat -> nat) (d : N -> N) (g : nat -> bool).
Hypothesis F_lt : forall s, s < n -> f s < n.
Hypothesis F_inv : forall s, s < n -> f (f s) = s.
Hypothesis F_A : forall s t, s < n -> t < n -> A (f s) (f t) = A s t.
Hypothesis d_lin : forall x y, d (N.lxor x y) = N.lxor (d x) (d y).
Hypothesis d_0 : d 0 = 0%N.
Hypothesis d_within : forall x, within r x -> within r (d x).
Hypothesis d_inv : forall x, within r x -> d (d x) = x.
Hypothesis d_co : forall s, s < n -> d (co s) = co (f s).
Hypothesis d_rt : forall s x, s < n -> within r x -> scalar r (rt (f s)) (d x) = scalar r (rt s) x.
Hypothesis g_f : forall s, s < n -> g (f s) = g s.
Notation "u ~ v" := (same n (coxeter A) u v) (at level 70).
Notation refl := (reflect2 r rt co).
Notation act := (act2 r rt co).
Notation ts := (tsame n (coxeter A) r rt co).
Notation tw := (twist_word co f d g).
Notation proper := (proper_word n r).
Notation valid := (valid n A r rt co f d g).
Notation conj := (conj co f d g).
Notation tw_same := (tw_same n A r rt co CA PAIR WR f d g F_lt F_inv F_A d_lin d_0 d_within d_co d_rt).

Lemma tor_unique x y u : ts (Tor x :: map Sig u) (Tor y :: map Sig u) -> over n u -> x = y.
Proof.
  intros E O. destruct (sound n A r rt co CA PAIR ell ELL _ _ E) with (p := (0%N, @nil nat)) as [Q _]; [unfold letters_ok; cbn; fold (sigs (map Sig u)); now rewrite sigs_sig|apply over_nil|].
  change (fst (steps r rt co ell (Tor x :: map Sig u) (0%N, []))) with (N.lxor x (fst (steps r rt co ell (map Sig u) (0%N, [])))) in Q.
  change (fst (steps r rt co ell (Tor y :: map Sig u) (0%N, []))) with (N.lxor y (fst (steps r rt co ell (map Sig u) (0%N, [])))) in Q.
  rewrite !(N.lxor_comm _ (fst _)) in Q. apply (f_equal (N.lxor (fst (steps r rt co ell (map Sig u) (0%N, []))))) in Q. now rewrite !lxor_cancel in Q.
Qed.
Section Fixed.
Variables (s : nat) (u : list nat).
Hypothesis Hs : s < n.
Hypothesis R : reduced_word n ell u.
Hypothesis R1 : ell (s :: u) = S (ell u).
Hypothesis COM : (s :: u) ~ (u ++ [f s]).
Lemma sig_across : ts (Sig s :: map Sig u) (map Sig u ++ [Sig (f s)]).
Proof.
  destruct R as [O L]. assert (O1 : over n (s :: u)) by (apply over_cons; auto). assert (O2 : over n (u ++ [f s])) by (apply over_app; split; [auto|now apply over_one, F_lt]).
  pose proof (shortest_words n A r rt co CA PAIR WR ell ELL (s :: u) (u ++ [f s])) as M. rewrite map_app in M. apply M; auto.
  - split; [auto|]. cbn [length]. now rewrite R1, L.
  - split; [auto|]. rewrite app_length. cbn [length]. rewrite <- (ell_same n _ ell ELL _ _ O1 COM), R1, L. lia.
Qed.
Lemma coroot_across : act u (co (f s)) = co s.
Proof.
  destruct R as [O _]. symmetry. apply (tor_unique _ _ u); [|auto]. pose proof (F_lt s Hs) as Hf. pose proof sig_across as E.
  assert (P : ts (map Sig u ++ [Tor (co (f s))]) (Tor (act u (co (f s))) :: map Sig u)).
  { pose proof (ts_push n A r rt co WR u (co (f s)) [] O (WR _ Hf)) as Q. now rewrite app_nil_r in Q. }
  eapply ts_trans; [|exact P]. eapply ts_trans; [apply (ts_app_r n A r rt co (map Sig u) [Tor (co s)] [Sig s; Sig s]); apply ts_sym, ts_square; auto|]. cbn [app].
  eapply ts_trans; [apply ts_cons, E|]. change (Sig s :: map Sig u ++ [Sig (f s)]) with ((Sig s :: map Sig u) ++ [Sig (f s)]). eapply ts_trans; [apply ts_app_r, E|]. rewrite <- app_assoc. apply ts_app_l. now apply ts_square.
Qed.
Variable t : N.
Hypothesis Bt : within r t.
Notation p := (Tor t :: map Sig u).
Notation gr := (xorb (g s) (scalar r (rt s) t)).
Notation x := (if gr then co s else 0%N).
Lemma x_within : within r x.
Proof. destruct gr; [now apply WR|apply within_0]. Qed.
Lemma exchange : ts (Sig s :: p) (Tor x :: p ++ tw [Sig s]).
Proof.
  pose proof x_within as Bx. destruct R as [O _]. pose proof (F_lt s Hs) as Hf. pose proof (gm_within n r co WR g (f s) Hf) as Bg. cbv beta in Bg.
  assert (Br : within r (refl s t)) by (apply (refl_within n r rt co WR); auto).
  eapply ts_trans; [now apply ts_pass|]. eapply ts_trans; [apply ts_cons, sig_across|]. apply ts_sym.
  eapply ts_trans; [apply ts_cons, ts_app_l, tw_sig; auto|]. cbn [app].
  eapply ts_trans; [apply ts_cons, ts_cons, ts_app_l; eapply ts_trans; [apply ts_commute; auto|]; rewrite (refl_gm n A r rt co CA PAIR g (f s) Hf); apply ts_refl|].
  eapply ts_trans; [apply ts_merge; auto|]. eapply ts_trans; [apply ts_cons, (ts_push n A r rt co WR); auto|]. 
  eapply ts_trans; [apply ts_merge; [now apply within_lxor|apply (act_within n r rt co WR); auto]|].
  match goal with |- ts (Tor ?a :: _) (Tor ?b :: _) => replace a with b; [apply ts_refl|] end.
  assert (E : act u (if g (f s) then co (f s) else 0%N) = if g s then co s else 0%N).
  { rewrite g_f by auto. destruct (g s); [apply coroot_across|]. clear. induction u as [|a v IH]; [auto|]. now rewrite act_cons, IH, refl_0. }
  rewrite E. rewrite refl_eq. destruct (g s), (scalar r (rt s) t); cbv [xorb]; rewrite ?N.lxor_0_l, ?N.lxor_0_r; xors.
Qed.
Theorem imaginary_conj : ts (conj [Sig s] p) (Tor x :: p).
Proof.
  unfold TgCoset.conj. cbn [inverse_word]. rewrite app_nil_l. change ([Sig s] ++ p ++ tw (sig_inv co s)) with ((Sig s :: p) ++ tw (sig_inv co s)).
  eapply ts_trans; [apply ts_app_r, exchange|]. change ((Tor x :: p ++ tw [Sig s]) ++ tw (sig_inv co s)) with (Tor x :: (p ++ tw [Sig s]) ++ tw (sig_inv co s)). apply ts_cons. rewrite <- app_assoc, <- tw_app.
  eapply ts_trans; [apply ts_app_l, (tw_same _ []), (inv_sig_r n A r rt co CA PAIR WR); auto|]. unfold twist_word at 1. cbn [flat_map]. rewrite app_nil_r. apply ts_refl.
Qed.
Theorem imaginary_conj_inv : ts (conj (sig_inv co s) p) (Tor x :: p).
Proof.
  pose proof x_within as Bx. pose proof (WR s Hs) as Bs. unfold TgCoset.conj.
  assert (E1 : ts (p ++ tw [Sig s]) (Tor x :: Sig s :: p)).
  { apply ts_sym. eapply ts_trans; [apply ts_cons, exchange|]. eapply ts_trans; [apply ts_merge; auto|]. rewrite N.lxor_nilpotent. apply ts_zero. }
  assert (E2 : ts (tw (inverse_word co (sig_inv co s))) (tw [Sig s])).
  { apply tw_same. unfold sig_inv. cbn [inverse_word app]. eapply ts_trans; [apply ts_app_r; apply (ts_sym _ _ _ _ _ _ _ (ts_sig_inv n A r rt co CA PAIR WR s Hs))|]. cbn [app].
    eapply ts_trans; [apply ts_cons, inv_tor; auto|]. apply ts_refl. }
  eapply ts_trans; [apply ts_app_l; eapply ts_trans; [apply ts_app_l, E2|exact E1]|]. unfold sig_inv. cbn [app].
  eapply ts_trans; [apply ts_cons, ts_pass; auto|]. replace (refl s x) with x by (destruct gr; [now rewrite (refl_own n A r rt co CA PAIR s Hs)|now rewrite refl_0]).
  eapply ts_trans; [apply ts_cons, ts_cons; apply (ts_app_r n A r rt co (Tor t :: map Sig u) [Sig s; Sig s] [Tor (co s)]); now apply ts_square|]. cbn [app].
  eapply ts_trans; [apply ts_cons, ts_merge; auto|]. eapply ts_trans; [apply ts_merge; [auto|now apply within_lxor]|]. rewrite (N.lxor_comm x), lxor_cancel. apply ts_refl.
Qed.
Theorem imaginary_square : ts ((Sig s :: p) ++ tw (Sig s :: p)) (Tor (if gr then 0%N else co s) :: p ++ tw p).
Proof.
  pose proof x_within as Bx. pose proof (WR s Hs) as Bs. rewrite (tw_app co f d g [Sig s] p : tw (Sig s :: p) = _). rewrite app_comm_cons.
  assert (E : ts (p ++ tw [Sig s]) (Tor x :: Sig s :: p)).
  { apply ts_sym. eapply ts_trans; [apply ts_cons, exchange|]. eapply ts_trans; [apply ts_merge; auto|]. rewrite N.lxor_nilpotent. apply ts_zero. }
  replace ((Sig s :: p) ++ tw [Sig s] ++ tw p) with (Sig s :: (p ++ tw [Sig s]) ++ tw p) by (cbn [app]; now rewrite <- app_assoc).
  eapply ts_trans; [apply ts_cons, ts_app_r, E|]. cbn [app]. eapply ts_trans; [apply ts_pass; auto|].
  eapply ts_trans; [apply ts_cons; apply (ts_app_r n A r rt co (Tor t :: map Sig u ++ tw (Tor t :: map Sig u)) [Sig s; Sig s] [Tor (co s)]); now apply ts_square|]. cbn [app].
  replace (refl s x) with x by (destruct gr; [now rewrite (refl_own n A r rt co CA PAIR s Hs)|now rewrite refl_0]).
  eapply ts_trans; [apply ts_merge; auto|]. destruct gr; [rewrite N.lxor_nilpotent|rewrite N.lxor_0_l]; apply ts_refl.
Qed.
End Fixed.
End Imaginary.
