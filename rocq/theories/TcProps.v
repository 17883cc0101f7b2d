(** C175: the two gradings agree at roots that are reached through complex reflections. *)

From Coq Require Import List Arith NArith ZArith Bool Lia.
From Verif Require Import RunModel VecModel MatModel MatSpec F2Model F2Spec F2Basics F2Proofs WeylModel WeylSpec WeylExchange RootModel RootSpec RootTop RootPerm RootProps DatModel DatProps DfSpec DfProps RsfModel RsfBase RsfProofs RsfProps
  TgModel TgSpec TgSem TgMath TgCoset TgProofs TgProps MoBase TnModel TnSpec TnProofs TnCo TnProps TwistSpec TcSpec TcEval TcProofs TcRoots.
Import ListNotations.
Open Scope nat_scope.

(** for an imaginary root that is carried to a simple root by complex reflections only, simple_imaginary_grading of the torus part is the grading *)
Theorem C175_agree dim n A r G g c pc rs : tits_of dim n A r G -> twist_ok dim n A r G -> n <= dim -> signs_ok n G g -> built n A c pc rs ->
  forall u a alpha v i w, proper_word n r u -> denotes n A r G u a -> num_pos rs <= alpha < num_roots rs ->
  over n v -> element (tg_W G) v = Ok (te_w a) -> fixed_by n A (tg_twist G) v (RootTop.root_at rs alpha) ->
  conjugate_to_simple rs alpha = Ok (i, w) -> complex_path n A (tg_twist G) w v ->
  exists gr, simple_imaginary_grading dim G g rs (te_t a) alpha = Ok gr /\ coset_grading dim G g rs a alpha = Ok gr.
Proof.
  intros T K ND SG BU u a alpha v i w Pu Da Ha Ov Ev F Ec C. pose proof BU as (L & FT & H & E). destruct (conjugate_run n A c pc rs L FT H E alpha ltac:(unfold num_roots in Ha; lia)) as (i' & w' & Ec' & Hi & W & Em & _).
  rewrite Ec in Ec'. injection Ec' as <- <-.
  assert (O : over n w) by (intros x Hx; rewrite Forall_forall in W; now apply W).
  destruct (simple_lt n A c pc rs L FT H E i Hi) as (Hp & Es & Es'). destruct (mv_ok n A c pc rs L FT H E w (num_pos rs + i) W ltac:(lia)) as (_ & Er & Ek).
  assert (Ea : word_act n A w (basis n i) = RootTop.root_at rs alpha).
  { rewrite <- Es, <- Er, Em. unfold make_positive, is_pos. now rewrite (proj2 (Nat.leb_le _ _) (proj1 Ha)). }
  destruct (proj1 (C160_cross_word dim n A r G T K ND g SG w u a Pu Da O)) as (b & Eb & _ & _).
  rewrite (grading_follows dim G g rs a alpha i w b Ec Eb), (C161_grading dim n A r G T ND g b i Hi).
  rewrite (C174_formula dim n A r G g c pc rs T ND BU a alpha (proj2 Ha)). eexists. split; [reflexivity|]. f_equal.
  destruct (to_weyl _ _ _ _ _ T) as (comps & D & RM & MK).
  assert (R : TgProofs.rep n A r G comps a (data (te_t a), v)).
  { destruct Da as (v0 & _ & _ & _ & B & _). split; [exact B|]. split; [reflexivity|]. cbn [snd]. now apply (WeylExt.element_X n A comps (tg_W G) D RM MK). }
  rewrite <- Ea in F. rewrite (answer_path dim n A r G comps D RM MK T K ND (proj1 (f_cart n A FT)) g i Hi w v a _ b O Ov R F C Eb).
  rewrite Ea. unfold answer. f_equal. rewrite odd_sum. apply comb2_ext. intros k Hk. unfold noncompact. now destruct (negb _).
Qed.
Print Assumptions C175_agree.
(** the reflections are complex for all simple imaginary roots of twisted involutions, so the gradings agree there *)
Theorem C175_simple_imaginary dim n A r G g c pc rs : tits_of dim n A r G -> twist_ok dim n A r G -> n <= dim -> signs_ok n G g -> built n A c pc rs ->
  forall u a alpha v, proper_word n r u -> denotes n A r G u a -> num_pos rs <= alpha < num_roots rs ->
  element (tg_W G) v = Ok (te_w a) -> twisted_involution n A (tg_twist G) v -> simple_imaginary n A (tg_twist G) v (RootTop.root_at rs alpha) ->
  (forall i w, conjugate_to_simple rs alpha = Ok (i, w) -> complex_path n A (tg_twist G) w v) /\
  exists gr, simple_imaginary_grading dim G g rs (te_t a) alpha = Ok gr /\ coset_grading dim G g rs a alpha = Ok gr.
Proof.
  intros T K ND SG BU u a alpha v Pu Da Ha Ev TV [F N]. pose proof BU as (L & FT & H & E).
  assert (C : forall i w, conjugate_to_simple rs alpha = Ok (i, w) -> complex_path n A (tg_twist G) w v).
  { intros i w Ec. destruct (to_weyl _ _ _ _ _ T) as (comps & D & RM & MK). apply (descends_complex dim n A r G comps D RM MK T K ND FT w v (RootTop.root_at rs alpha) TV).
    - apply (rt_up n A c pc rs L FT H E). exact Ha.
    - split; [exact F|]. intros x z Ux Uz Fx Fz. apply N; try assumption; first [now apply (RootMath.up_root n A)|now apply (RootMath.up_nonneg n A)|idtac].
    - apply (descends_conjugate n A c pc rs L FT H E alpha i w Ha Ec). }
  split; [exact C|]. destruct (conjugate_run n A c pc rs L FT H E alpha ltac:(unfold num_roots in Ha; lia)) as (i & w & Ec & _).
  apply (C175_agree dim n A r G g c pc rs T K ND SG BU u a alpha v i w Pu Da Ha (proj1 TV) Ev F Ec (C i w Ec)).
Qed.
Print Assumptions C175_simple_imaginary.
(** GL(4) with the involution inverse transpose: the highest root is fixed by the twist and reached by two complex reflections *)
Example C175_ex : tits_of 32 3 g4_A 4 G4 /\ twist_ok 32 3 g4_A 4 G4 /\ signs_ok 3 G4 2 /\ built 3 g4_A a3 false RootProps.A /\
  (proper_word 3 4 [Tor 9] /\ denotes 3 g4_A 4 G4 [Tor 9] (mk_te (mk_bv 9 4) [0; 0; 0])) /\
  num_pos RootProps.A <= 11 < num_roots RootProps.A /\ element g4_W [] = Ok [0; 0; 0] /\ fixed_by 3 g4_A (tg_twist G4) [] (RootTop.root_at RootProps.A 11) /\
  conjugate_to_simple RootProps.A 11 = Ok (2, [0; 1]) /\ complex_path 3 g4_A (tg_twist G4) [0; 1] [] /\
  simple_imaginary_grading 32 G4 2 RootProps.A (mk_bv 9 4) 11 = Ok true /\ coset_grading 32 G4 2 RootProps.A (mk_te (mk_bv 9 4) [0; 0; 0]) 11 = Ok true /\
  simple_imaginary_grading 32 G4 2 RootProps.A (mk_bv 1 4) 11 = Ok false /\ coset_grading 32 G4 2 RootProps.A (mk_te (mk_bv 1 4) [0; 0; 0]) 11 = Ok false.
Proof.
  split; [apply G4_tits|]. split; [apply G4_tits|]. split; [exact G4_signs2|]. split; [exact a3_g4|]. split; [apply g4_means; vm_compute; reflexivity|].
  split; [vm_compute; lia|]. split; [vm_compute; reflexivity|]. split; [intros i Hi; do 3 (destruct i as [|i]; [vm_compute; reflexivity|]); lia|]. split; [vm_compute; reflexivity|].
  split; [|vm_compute; auto]. split; [|split; [|exact I]].
  - exists 0, 2. split; [apply (g4_shortest [] [0; 0; 0] 0)|split; [apply (g4_shortest _ [1; 0; 1] 2)|]]; try (vm_compute; reflexivity). left; reflexivity.
  - exists 2, 4. split; [apply (g4_shortest _ [1; 0; 1] 2)|split; [apply (g4_shortest _ [0; 2; 2] 4)|]]; try (vm_compute; reflexivity). left; reflexivity.
Qed.
Lemma g4_fixed y : is_root 3 g4_A y -> nonneg y -> fixed_by 3 g4_A (tg_twist G4) [] y -> y = [0; 1; 0]%Z \/ y = [1; 1; 1]%Z.
Proof.
  intros R P F. destruct (MoBase.b_get 3 g4_A a3 false RootProps.A a3_g4 y R) as (a & Ha & <-). change (num_roots RootProps.A) with 12 in Ha.
  pose proof (F 0 ltac:(lia)) as F0. pose proof (P 0) as P0. pose proof (P 1) as P1. revert F0 P0 P1. do 12 (destruct a as [|a]; [vm_compute; intros F0 P0 P1; first [now left|now right|discriminate|exfalso; now apply P0|exfalso; now apply P1]|]). lia.
Qed.
Example C175_simple_imaginary_ex : twisted_involution 3 g4_A (tg_twist G4) [] /\ element (tg_W G4) [] = Ok (te_w (mk_te (mk_bv 9 4) [0; 0; 0])) /\
  simple_imaginary 3 g4_A (tg_twist G4) [] (RootTop.root_at RootProps.A 11) /\ RootTop.root_at RootProps.A 11 = [1; 1; 1]%Z.
Proof.
  split; [split; [now apply over_word|apply same_refl]|]. split; [vm_compute; reflexivity|]. split; [|vm_compute; reflexivity]. split.
  - intros i Hi. do 3 (destruct i as [|i]; [vm_compute; reflexivity|]). lia.
  - intros y z Ry Py Rz Pz Fy Fz. destruct (g4_fixed y Ry Py Fy) as [->| ->], (g4_fixed z Rz Pz Fz) as [->| ->]; vm_compute; discriminate.
Qed.
