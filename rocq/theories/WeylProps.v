(** Properties C70-C76: Weyl groups. *)

From Coq Require Import List Arith ZArith Lia Bool Ascii Permutation Sorted.
From Verif Require Import VecModel VecProofs RunModel RunProofs SizeModel SizeSpec WeylModel WeylSpec WeylTable WeylCheck WeylExchange WeylGroup WeylOps WeylMore WeylMake WeylExt WeylOrder WeylClass.
Import ListNotations.
Open Scope nat_scope.

(** *** an example: type B3 on generators 2, 0, 3, and A1 on generator 1 *)
Definition ex_comps : list component := [mk_comp "B" 0 [2; 0; 3]; mk_comp "A" 3 [1]].
Definition ex_matrix : list (list Z) := [[2; 0; -1; -2]; [0; 2; 0; 0]; [-1; 0; 2; 0]; [-1; 0; 0; 2]]%Z.
Definition ex_A (i j : nat) : Z := nth j (nth i ex_matrix []) 0%Z.
Definition ex_W : weyl_group := match make_weyl 4 ex_comps with Ok W => W | Fail _ => mk_weyl [] [] [] [] [] end.
Lemma ex_describes : describes 4 ex_A ex_comps.
Proof.
  split; [vm_compute; auto|]. split.
  - apply NoDup_Permutation_bis; [|reflexivity|].
    + cbn. repeat (constructor; [cbn; lia|]). constructor.
    + intros x I. cbn in I. apply in_seq. lia.
  - split.
    + intros c I. cbn in I. destruct I as [<-|[<-|[]]]; (split; [cbn; lia|]); intros i j p q Hi Hj;
      repeat (destruct i as [|i]; [cbn in Hi; injection Hi as <-; repeat (destruct j as [|j]; [cbn in Hj; injection Hj as <-; vm_compute; reflexivity|]); cbn in Hj; try discriminate; destruct j; discriminate|]);
      cbn in Hi; try discriminate; destruct i; discriminate.
    + intros c d p q I J N P Q. cbn in I, J. destruct I as [<-|[<-|[]]], J as [<-|[<-|[]]]; cbn in N; try lia; cbn in P, Q; intuition (subst; reflexivity).
Qed.
Lemma ex_weyl : weyl_of 4 ex_A ex_W.
Proof. exists ex_comps. split; [exact ex_describes|]. split; [lia|]. vm_compute. reflexivity. Qed.

(** *** C70 *)
Theorem C70_construct n A comps : describes n A comps -> n <= 32 -> exists W, make_weyl n comps = Ok W /\ w_rank W = n.
Proof.
  intros D RM. destruct (make_weyl_ok n A comps D RM) as (W & E & R). exists W. split; [auto|]. apply (rank_is n A comps W D RM E).
Qed.
Example C70_construct_ex : describes 4 ex_A ex_comps /\ w_rank ex_W = 4 /\ map tr_size (w_transducer ex_W) = [2; 4; 6; 2].
Proof. split; [exact ex_describes|]. vm_compute. auto. Qed.
Theorem C70_element n A W u : weyl_of n A W -> over n u -> exists w, element W u = Ok w /\ length w = n.
Proof.
  intros (comps & D & RM & MK) O. pose proof (element_ok n A comps W D RM MK u O) as M. apply gives_sure in M. destruct M as (w & E & _ & [[L _] _]). eauto.
Qed.
Example C70_element_ex : weyl_of 4 ex_A ex_W /\ element ex_W [0; 3; 0; 3; 1; 2] = Ok [1; 3; 1; 1] /\ element ex_W [1; 3; 0; 3; 0; 2] = Ok [1; 3; 1; 1].
Proof. split; [exact ex_weyl|]. vm_compute. auto. Qed.
Theorem C70_word_problem n A W u v : weyl_of n A W -> over n u -> over n v -> (element W u = element W v <-> same n (coxeter A) u v).
Proof.
  intros (comps & D & RM & MK) Ou Ov. pose proof (element_ok n A comps W D RM MK u Ou) as M. apply gives_sure in M. destruct M as (w & E & R).
  pose proof (element_ok n A comps W D RM MK v Ov) as M'. apply gives_sure in M'. destruct M' as (w' & E' & R'). rewrite E, E'. split.
  - intros Q. injection Q as <-. now apply (X_eq n A comps W D RM MK w).
  - intros S. f_equal. apply (X_unique n A comps W D RM MK _ _ v); [|auto]. now apply (X_same n A comps W D RM MK _ u).
Qed.
Theorem C70_faithful n A W u v : weyl_of n A W -> over n u -> over n v ->
  (element W u = element W v <-> forall x j, j < n -> reflect_word A u x j = reflect_word A v x j).
Proof.
  intros H Ou Ov. rewrite (C70_word_problem n A W u v H Ou Ov). destruct H as (comps & D & RM & MK). apply (faithful n A comps W D RM MK); auto.
Qed.
Example C70_faithful_ex : let x := fun i => Z.of_nat (i + 1) in
  (element ex_W [0; 3; 0; 3] = element ex_W [3; 0; 3; 0] /\ element ex_W [0; 3; 0] <> element ex_W [3; 0; 3]) /\
  map (reflect_word ex_A [0; 3; 0; 3] x) [0; 1; 2; 3] = map (reflect_word ex_A [3; 0; 3; 0] x) [0; 1; 2; 3] /\
  map (reflect_word ex_A [0; 3; 0] x) [0; 1; 2; 3] <> map (reflect_word ex_A [3; 0; 3] x) [0; 1; 2; 3].
Proof. cbv zeta. split; [split|split]; vm_compute; congruence. Qed.
Theorem C70_generator n A W s : weyl_of n A W -> s < n -> generator W s = element W [s].
Proof.
  intros (comps & D & RM & MK) Hs. pose proof (generator_X n A comps W D RM MK s Hs) as M. apply gives_sure in M. destruct M as (w & E & R). rewrite E.
  symmetry. now apply (element_is n A comps W D RM MK).
Qed.

(** *** C71: products *)
Section Products.
Variables (n : nat) (A : nat -> nat -> Z) (W : weyl_group).
Hypothesis HW : weyl_of n A W.
Lemma is_X : exists comps, describes n A comps /\ n <= rank_max /\ make_weyl n comps = Ok W.
Proof. exact HW. Qed.
Ltac start := destruct is_X as (comps & D & RM & MK).
Ltac intoX E := match goal with D : describes _ _ ?comps, RM : n <= rank_max, MK : make_weyl _ ?comps = Ok _ |- _ => apply (element_X n A comps W D RM MK) in E; [|assumption] end.
Ltac take M w E R := apply gives_sure in M; destruct M as (w & E & R).

Theorem C71_mult_gen w u s : over n u -> element W u = Ok w -> s < n -> exists w' c, mult_gen W w s = Ok (w', c) /\ element W (u ++ [s]) = Ok w'.
Proof.
  start. intros O E Hs. intoX E. pose proof (mult_gen_ok n A comps W D RM MK w u s E Hs) as M. take M p F R. destruct p as [w' c]. exists w', c. split; [auto|].
  apply (element_is n A comps W D RM MK). apply R.
Qed.
Theorem C71_mult_word w u v : over n u -> element W u = Ok w -> over n v -> mult_word W w v = element W (u ++ v).
Proof.
  start. intros O E Ov. intoX E. pose proof (mult_word_ok n A comps W D RM MK w u v E Ov) as M. take M w' F R. rewrite F. symmetry. now apply (element_is n A comps W D RM MK).
Qed.
Theorem C71_mult w w' u u' : over n u -> over n u' -> element W u = Ok w -> element W u' = Ok w' -> mult W w w' = element W (u ++ u').
Proof.
  start. intros O O' E E'. intoX E. intoX E'. pose proof (mult_X n A comps W D RM MK w w' u u' E E') as M. take M w2 F R. rewrite F. symmetry. now apply (element_is n A comps W D RM MK).
Qed.
Theorem C71_left_mult w w' u u' : over n u -> over n u' -> element W u = Ok w -> element W u' = Ok w' -> left_mult W w w' = element W (u' ++ u).
Proof. intros O O' E E'. unfold left_mult. now apply C71_mult. Qed.
Theorem C71_left_mult_gen w u s : over n u -> element W u = Ok w -> s < n -> exists w' c, left_mult_gen W s w = Ok (w', c) /\ element W (s :: u) = Ok w'.
Proof.
  start. intros O E Hs. intoX E. pose proof (left_mult_gen_ok n A comps W D RM MK w u s E Hs) as M. take M p F R. destruct p as [w' c]. exists w', c. split; [auto|].
  apply (element_is n A comps W D RM MK). apply R.
Qed.
Theorem C71_left_mult_word w u v : over n u -> element W u = Ok w -> over n v -> left_mult_word W v w = element W (v ++ u).
Proof.
  start. intros O E Ov. intoX E. pose proof (left_mult_word_ok n A comps W D RM MK w u v E Ov) as M. take M w' F R. rewrite F. symmetry. now apply (element_is n A comps W D RM MK).
Qed.
Theorem C71_conjugate w u s : over n u -> element W u = Ok w -> s < n -> conjugate W w s = element W (s :: u ++ [s]).
Proof.
  start. intros O E Hs. intoX E. pose proof (conjugate_X n A comps W D RM MK w u s E Hs) as M. take M w' F R. rewrite F. symmetry. now apply (element_is n A comps W D RM MK).
Qed.
Theorem C71_inverse w u : over n u -> element W u = Ok w -> inverse W w = element W (rev u).
Proof.
  start. intros O E. intoX E. pose proof (inverse_X n A comps W D RM MK w u E) as M. take M w' F R. rewrite F. symmetry. now apply (element_is n A comps W D RM MK).
Qed.

(** *** C72: lengths, reduced words, descents *)
Lemma shortest_unique m u k k' : shortest n m u k -> shortest n m u k' -> k = k'.
Proof. intros [(v & O & S & L) M] [(v' & O' & S' & L') M']. pose proof (M v' O' S'). pose proof (M' v O S). lia. Qed.
Theorem C72_word w u : over n u -> element W u = Ok w -> exists v, word W w = Ok v /\ over n v /\ element W v = Ok w /\ shortest n (coxeter A) u (length v).
Proof.
  start. intros O E. intoX E. destruct (word_X n A comps W D RM MK w (X_valid n A comps W w u E)) as (v & F & R & L). exists v. split; [auto|]. split; [apply R|].
  split; [now apply (element_is n A comps W D RM MK)|]. rewrite L. now apply (X_length n A comps W D RM MK).
Qed.
Theorem C72_length w u : over n u -> element W u = Ok w -> exists k, w_length W w = Ok k /\ shortest n (coxeter A) u k.
Proof.
  start. intros O E. intoX E. eexists. split; [apply (w_length_ok n _ _ _ W (G n A comps W D RM MK) w (X_valid n A comps W w u E))|]. now apply (X_length n A comps W D RM MK).
Qed.
Theorem C72_mult_gen_change w u s w' c k k' : over n u -> element W u = Ok w -> s < n -> mult_gen W w s = Ok (w', c) ->
  shortest n (coxeter A) u k -> shortest n (coxeter A) (u ++ [s]) k' -> (c = Z.of_nat k' - Z.of_nat k /\ (c = 1 \/ c = -1))%Z.
Proof.
  start. intros O E Hs F S S'. intoX E. pose proof (mult_gen_ok n A comps W D RM MK w u s E Hs) as M. rewrite F in M. destruct M as (R & C & P).
  rewrite (shortest_unique _ _ _ _ S (X_length n A comps W D RM MK w u E)), (shortest_unique _ _ _ _ S' (X_length n A comps W D RM MK w' _ R)). auto.
Qed.
Theorem C72_left_mult_gen_change w u s w' c k k' : over n u -> element W u = Ok w -> s < n -> left_mult_gen W s w = Ok (w', c) ->
  shortest n (coxeter A) u k -> shortest n (coxeter A) (s :: u) k' -> c = (Z.of_nat k' - Z.of_nat k)%Z.
Proof.
  start. intros O E Hs F S S'. intoX E. pose proof (left_mult_gen_ok n A comps W D RM MK w u s E Hs) as M. rewrite F in M. destruct M as (R & C).
  rewrite (shortest_unique _ _ _ _ S (X_length n A comps W D RM MK w u E)), (shortest_unique _ _ _ _ S' (X_length n A comps W D RM MK w' _ R)). auto.
Qed.
Theorem C72_length_change w u s k k' : over n u -> element W u = Ok w -> s < n -> shortest n (coxeter A) u k -> shortest n (coxeter A) (u ++ [s]) k' ->
  length_change W w s = Ok (Z.of_nat k' - Z.of_nat k)%Z.
Proof.
  intros O E Hs S S'. destruct (C71_mult_gen w u s O E Hs) as (w' & c & F & _). unfold length_change. rewrite F. cbn [bind]. f_equal.
  apply (C72_mult_gen_change w u s w' c k k' O E Hs F S S').
Qed.
Theorem C72_has_descent w u s k k' : over n u -> element W u = Ok w -> s < n -> shortest n (coxeter A) u k -> shortest n (coxeter A) (s :: u) k' ->
  has_descent W s w = Ok (k' <? k).
Proof.
  start. intros O E Hs S S'. intoX E. pose proof (has_descent_X n A comps W D RM MK w u s E Hs) as M. take M b F P. rewrite F. f_equal.
  pose proof (left_mult_gen_ok n A comps W D RM MK w u s E Hs) as M. take M p F' R. destruct p as [w' c]. destruct R as [R _].
  rewrite (shortest_unique _ _ _ _ S (X_length n A comps W D RM MK w u E)), (shortest_unique _ _ _ _ S' (X_length n A comps W D RM MK w' _ R)).
  apply eq_true_iff_eq. rewrite Nat.ltb_lt. now apply P.
Qed.
Lemma left_parity w u s k k' : over n u -> element W u = Ok w -> s < n -> shortest n (coxeter A) u k -> shortest n (coxeter A) (s :: u) k' -> k' = S k \/ k = S k'.
Proof.
  start. intros O E Hs S S'. intoX E. pose proof (left_mult_gen_ok n A comps W D RM MK w u s E Hs) as M. take M p F' R. destruct p as [w' c]. destruct R as [R _].
  rewrite (shortest_unique _ _ _ _ S (X_length n A comps W D RM MK w u E)), (shortest_unique _ _ _ _ S' (X_length n A comps W D RM MK w' _ R)).
  rewrite <- (ext_ell n A comps W D RM MK w u E), <- (ext_ell n A comps W D RM MK w' _ R). cbn [map].
  pose proof (x_ell_cons n _ _ _ W (G n A comps W D RM MK) (inp W s) (map (inp W) u) (proj1 (inp_spec n A comps W D RM MK s Hs)) (inp_over n A comps W D RM MK u O)). lia.
Qed.
Theorem C72_left_length_change w u s k k' : over n u -> element W u = Ok w -> s < n -> shortest n (coxeter A) u k -> shortest n (coxeter A) (s :: u) k' ->
  left_length_change W s w = Ok (Z.of_nat k' - Z.of_nat k)%Z.
Proof.
  intros O E Hs S S'. unfold left_length_change. rewrite (C72_has_descent w u s k k' O E Hs S S'). cbn [bind]. f_equal.
  destruct (left_parity w u s k k' O E Hs S S') as [->| ->]; [destruct (Nat.ltb_spec (Datatypes.S k) k)|destruct (Nat.ltb_spec k' (Datatypes.S k'))]; lia.
Qed.
Theorem C72_leftDescent w u : over n u -> element W u = Ok w -> exists o, leftDescent W w = Ok o /\
  match o with
  | None => same n (coxeter A) u []
  | Some s => s < n /\ forall k k', shortest n (coxeter A) u k -> shortest n (coxeter A) (s :: u) k' -> k' < k
  end.
Proof.
  start. intros O E. intoX E. pose proof (X_valid n A comps W w u E) as V. eexists. split; [apply (leftDescent_X n A comps W D RM MK w V)|].
  pose proof (X_of_valid n A comps W D RM MK w V) as R. pose proof (X_eq n A comps W D RM MK w u _ E R) as SM.
  pose proof (X_length n A comps W D RM MK w u E) as LE. rewrite <- (map_length (outp comps)) in LE. destruct (map (outp comps) (ev n (off comps) W w)) as [|s v].
  - exact SM.
  - destruct R as [OR _]. apply over_cons in OR. destruct OR as [Hs Ov]. split; [auto|]. intros k k' S S'. pose proof (shortest_unique _ _ _ _ S LE) as ->. destruct S' as [_ S'].
    cbn [length]. apply le_n_S. apply S'; [auto|]. apply (same_trans _ _ _ (s :: s :: v)); [now apply same_cons|]. apply (same_app _ _ [s; s] [] v v); [now apply same_square|apply same_refl].
Qed.

(** *** C73: the longest element *)
Theorem C73_longest : exists w0 u0 k0, longest W = Ok w0 /\ over n u0 /\ element W u0 = Ok w0 /\ shortest n (coxeter A) u0 k0 /\ w_max_length W = Ok k0 /\
  forall u k, over n u -> shortest n (coxeter A) u k -> k <= k0 /\ (k = k0 -> same n (coxeter A) u u0).
Proof.
  start. destruct (longest_X n A comps W D RM MK) as (w0 & E & T). pose proof (X_of_valid n A comps W D RM MK w0 (proj1 T)) as R. exists w0, (map (outp comps) (ev n (off comps) W w0)), (length (ev n (off comps) W w0)).
  split; [auto|]. split; [apply R|]. split; [now apply (element_is n A comps W D RM MK)|]. split; [now apply (X_length n A comps W D RM MK)|]. split.
  - apply (max_length_ok n _ _ _ W (G n A comps W D RM MK) w0); apply T.
  - intros u k O S. pose proof (element_ok n A comps W D RM MK u O) as M. take M w F RW. rewrite (shortest_unique _ _ _ _ S (X_length n A comps W D RM MK w u RW)).
    destruct (top_max n A comps W D RM MK w0 T w (X_valid n A comps W w u RW)) as [P Q]. split; [auto|]. intros EQ. apply Q in EQ. subst w. now apply (X_eq n A comps W D RM MK w0).
Qed.
Theorem C73_involution w0 u0 : longest W = Ok w0 -> over n u0 -> element W u0 = Ok w0 -> same n (coxeter A) (u0 ++ u0) [].
Proof.
  start. intros L O E. intoX E. destruct (longest_X n A comps W D RM MK) as (w & E' & T). rewrite E' in L. injection L as ->. now apply (top_square n A comps W D RM MK w0).
Qed.
Theorem C73_complement w0 u0 u k0 k k' : longest W = Ok w0 -> over n u0 -> element W u0 = Ok w0 -> over n u ->
  shortest n (coxeter A) u0 k0 -> shortest n (coxeter A) u k -> shortest n (coxeter A) (u ++ u0) k' -> k' + k = k0.
Proof.
  start. intros L O E Ou S0 S S'. intoX E. destruct (longest_X n A comps W D RM MK) as (w & E' & T). rewrite E' in L. injection L as ->.
  pose proof (element_ok n A comps W D RM MK u Ou) as M. take M wu F R. pose proof (element_ok n A comps W D RM MK (u ++ u0) ltac:(now apply over_app)) as M. take M w2 F' R'.
  rewrite (shortest_unique _ _ _ _ S (X_length n A comps W D RM MK wu u R)), (shortest_unique _ _ _ _ S' (X_length n A comps W D RM MK w2 _ R')), (shortest_unique _ _ _ _ S0 (X_length n A comps W D RM MK w0 _ E)).
  now apply (top_length n A comps W D RM MK w0 u0 wu u w2).
Qed.
Theorem C73_Chevalley_dual w0 u0 s : longest W = Ok w0 -> over n u0 -> element W u0 = Ok w0 -> s < n ->
  exists t, t < n /\ Chevalley_dual W s = Ok (Some t) /\ same n (coxeter A) (u0 ++ [s] ++ u0) [t].
Proof.
  start. intros L O E Hs. intoX E. destruct (longest_X n A comps W D RM MK) as (w & E' & T). rewrite E' in L. injection L as ->.
  destruct (Chevalley_dual_X n A comps W D RM MK w0 u0 s T E Hs) as (t & H1 & H2 & H3). eauto.
Qed.
Lemma conj_word u0 f : over n u0 -> same n (coxeter A) (u0 ++ u0) [] -> (forall s, s < n -> same n (coxeter A) (u0 ++ [s] ++ u0) [nth s f 0]) ->
  forall u, over n u -> same n (coxeter A) (u0 ++ u ++ u0) (relabel f u).
Proof.
  intros O Q H. induction u as [|s u IH]; intros Ou; [exact Q|]. apply over_cons in Ou. destruct Ou as [Hs Ou]. cbn [relabel map]. fold (relabel f u).
  apply (same_trans _ _ _ ((u0 ++ [s] ++ u0) ++ (u0 ++ u ++ u0))).
  - apply same_sym. rewrite <- !app_assoc. apply same_app_l. cbn [app]. apply same_cons. rewrite app_assoc. apply (same_app_r n (coxeter A) _ _ [] Q).
  - apply (same_app _ _ _ [nth s f 0]); auto.
Qed.
Theorem C73_Chevalley_twist w0 u0 : longest W = Ok w0 -> over n u0 -> element W u0 = Ok w0 ->
  exists f, Chevalley_twist W = Ok (map Some f) /\ length f = n /\ over n f /\
    (forall u, over n u -> same n (coxeter A) (u0 ++ u ++ u0) (relabel f u)) /\ (forall u, over n u -> relabel f (relabel f u) = u) /\
    forall u v, over n u -> over n v -> (same n (coxeter A) u v <-> same n (coxeter A) (relabel f u) (relabel f v)).
Proof.
  intros L O E. pose proof (C73_involution w0 u0 L O E) as Q.
  assert (X : exists f, Chevalley_twist W = Ok (map Some f) /\ length f = n /\ forall s, s < n -> nth s f 0 < n /\ same n (coxeter A) (u0 ++ [s] ++ u0) [nth s f 0]).
  { start. unfold Chevalley_twist. rewrite (rank_is n A comps W D RM MK).
    pose proof (make_row_ok (@None nat) n (Chevalley_dual W) (fun s o => exists t, o = Some t /\ t < n /\ same n (coxeter A) (u0 ++ [s] ++ u0) [t])) as M.
    assert (H : gives (make_row n (Chevalley_dual W)) (fun l => length l = n /\ forall i, i < n -> exists t, nth i l None = Some t /\ t < n /\ same n (coxeter A) (u0 ++ [i] ++ u0) [t]) sure).
    { apply M. intros s Hs. destruct (C73_Chevalley_dual w0 u0 s L O E Hs) as (t & T1 & T2 & T3). rewrite T2. cbn [gives]. eauto. }
    take H l F P. destruct P as [LL P]. set (pick := fun o : option nat => match o with Some t => t | None => 0 end). exists (map pick l). split; [|split; [now rewrite map_length|]].
    - rewrite F, map_map. f_equal. rewrite <- (map_id l) at 1. apply map_ext_in. intros o I. apply (In_nth _ _ None) in I. destruct I as (i & Hi & <-).
      destruct (P i ltac:(lia)) as (t & -> & _). auto.
    - intros s Hs. destruct (P s Hs) as (t & T1 & T2 & T3). change (nth s (map pick l) 0) with (nth s (map pick l) (pick None)). rewrite (map_nth pick). rewrite T1. auto. }
  destruct X as (f & F & Lf & P). exists f. split; [auto|]. split; [auto|].
  assert (Of : over n f) by (intros s I; apply (In_nth _ _ 0) in I; destruct I as (i & Hi & <-); apply P; lia). split; [auto|].
  assert (C : forall u, over n u -> same n (coxeter A) (u0 ++ u ++ u0) (relabel f u)) by (apply conj_word; auto; intros s Hs; now apply P). split; [auto|].
  assert (RO : forall u, over n u -> over n (relabel f u)) by (intros u Ou; destruct is_X as (comps & D & RM & MK); apply relabel_over; auto; lia).
  assert (CC : forall u, over n u -> same n (coxeter A) (relabel f (relabel f u)) u).
  { intros u Ou. apply (same_trans _ _ _ (u0 ++ relabel f u ++ u0)); [apply same_sym, C; auto|]. apply (same_trans _ _ _ (u0 ++ (u0 ++ u ++ u0) ++ u0)).
    - apply same_app_l, same_app_r, same_sym, C; auto.
    - rewrite <- !app_assoc. rewrite (app_assoc u0 u0). apply (same_app _ _ (u0 ++ u0) [] (u ++ u0 ++ u0) u); [exact Q|]. rewrite <- (app_nil_r u) at 2. now apply same_app_l. }
  assert (INV : forall s, s < n -> nth (nth s f 0) f 0 = s).
  { intros s Hs. start. apply (one_letter n A comps W D RM MK); [apply P, P; auto|auto|]. apply (CC [s]). now apply over_one. }
  split.
  - intros u Ou. unfold relabel. rewrite map_map. rewrite <- (map_id u) at 2. apply map_ext_in. intros s I. apply INV. now apply Ou.
  - intros u v Ou Ov. split; intros S.
    + apply (same_trans _ _ _ (u0 ++ u ++ u0)); [apply same_sym; auto|]. apply (same_trans _ _ _ (u0 ++ v ++ u0)); [|auto]. now apply same_app_l, same_app_r.
    + apply (same_trans _ _ _ (relabel f (relabel f u))); [apply same_sym; auto|]. apply (same_trans _ _ _ (relabel f (relabel f v))); [|auto].
      apply (same_trans _ _ _ (u0 ++ relabel f u ++ u0)); [apply same_sym; auto|]. apply (same_trans _ _ _ (u0 ++ relabel f v ++ u0)); [|auto]. now apply same_app_l, same_app_r.
Qed.

(** *** C75: commuting generators, renaming of generators *)
Theorem C75_commutes s t : s < n -> t < n -> exists b, commutes W s t = Ok b /\ (b = true <-> same n (coxeter A) [s; t] [t; s]).
Proof. start. intros Hs Ht. now apply (commutes_X n A comps W D RM MK). Qed.
Theorem C75_translation w u f : over n u -> element W u = Ok w -> n <= length f -> over n f ->
  exists v, word W w = Ok v /\ translation W w f = element W (relabel f v).
Proof.
  start. intros O E Lf Of. intoX E. pose proof (X_valid n A comps W w u E) as V. exists (map (outp comps) (ev n (off comps) W w)).
  destruct (the_group n A comps W D RM MK) as (_ & _ & Lo & F). split.
  - rewrite (word_ok n _ _ _ W (G n A comps W D RM MK) w V) by (rewrite Lo; exact RM). f_equal. apply map_ext_in. intros i I. apply F. now apply (ev_over n _ _ _ W (G n A comps W D RM MK) w V).
  - pose proof (translation_X n A comps W D RM MK w f V Lf Of) as M. take M w' F' R. rewrite F'. symmetry. now apply (element_is n A comps W D RM MK).
Qed.
Lemma relabel_same f u v : n <= length f -> over n f -> (forall s t, s < n -> t < n -> s <> t -> nth s f 0 <> nth t f 0 /\ coxeter A (nth s f 0) (nth t f 0) = coxeter A s t) ->
  same n (coxeter A) u v -> same n (coxeter A) (relabel f u) (relabel f v).
Proof.
  intros Lf Of H. unfold relabel. apply same_map.
  - intros s Hs. apply Of, nth_In. lia.
  - auto.
Qed.
Theorem C75_translation_automorphism w u f : over n u -> element W u = Ok w -> n <= length f -> over n f ->
  (forall s t, s < n -> t < n -> s <> t -> nth s f 0 <> nth t f 0 /\ coxeter A (nth s f 0) (nth t f 0) = coxeter A s t) ->
  translation W w f = element W (relabel f u) /\ reverse_translation W w f = element W (rev (relabel f u)).
Proof.
  start. intros O E Lf Of H. intoX E. pose proof (X_valid n A comps W w u E) as V. pose proof (X_of_valid n A comps W D RM MK w V) as R0.
  pose proof (X_eq n A comps W D RM MK w _ u R0 E) as S. apply (relabel_same f _ _ Lf Of H) in S. split.
  - pose proof (translation_X n A comps W D RM MK w f V Lf Of) as M. take M w' F' R. rewrite F'. symmetry. apply (element_is n A comps W D RM MK).
    now apply (X_same n A comps W D RM MK _ _ _ R).
  - pose proof (reverse_translation_X n A comps W D RM MK w f V Lf Of) as M. take M w' F' R. rewrite F'. symmetry. apply (element_is n A comps W D RM MK).
    apply (X_same n A comps W D RM MK _ _ _ R). apply same_rev; [|auto]. intros s t. apply cox_sym.
Qed.

End Products.
Print Assumptions C70_construct.
Print Assumptions C70_element.
Print Assumptions C70_word_problem.
Print Assumptions C70_faithful.
Print Assumptions C70_generator.
Print Assumptions C71_mult_gen.
Print Assumptions C71_mult_word.
Print Assumptions C71_mult.
Print Assumptions C71_left_mult.
Print Assumptions C71_left_mult_gen.
Print Assumptions C71_left_mult_word.
Print Assumptions C71_conjugate.
Print Assumptions C71_inverse.
Print Assumptions C72_word.
Print Assumptions C72_length.
Print Assumptions C72_mult_gen_change.
Print Assumptions C72_left_mult_gen_change.
Print Assumptions C72_length_change.
Print Assumptions C72_has_descent.
Print Assumptions C72_left_length_change.
Print Assumptions C72_leftDescent.
Print Assumptions C73_longest.
Print Assumptions C73_involution.
Print Assumptions C73_complement.
Print Assumptions C73_Chevalley_dual.
Print Assumptions C73_Chevalley_twist.
Print Assumptions C75_commutes.
Print Assumptions C75_translation.
Print Assumptions C75_translation_automorphism.

Example C71_mult_ex : weyl_of 4 ex_A ex_W /\ element ex_W [0; 3; 2] = Ok [0; 2; 1; 0] /\ element ex_W [1; 3; 0] = Ok [1; 1; 0; 1] /\
  mult ex_W [0; 2; 1; 0] [1; 1; 0; 1] = element ex_W [0; 3; 2; 1; 3; 0] /\ inverse ex_W [0; 2; 1; 0] = element ex_W [2; 3; 0] /\
  conjugate ex_W [0; 2; 1; 0] 3 = element ex_W [3; 0; 3; 2; 3].
Proof. split; [exact ex_weyl|]. vm_compute. auto. Qed.
Example C72_ex : weyl_of 4 ex_A ex_W /\ (run w <- element ex_W [2; 3; 3; 1; 0; 1; 2; 0]; word ex_W w) = Ok [0; 2] /\
  (run w <- element ex_W [0; 3]; has_descent ex_W 0 w) = Ok true /\ (run w <- element ex_W [0; 3]; has_descent ex_W 3 w) = Ok false /\
  (run w <- element ex_W [0; 3]; leftDescent ex_W w) = Ok (Some 0) /\ (run w <- element ex_W [0; 3]; length_change ex_W w 3) = Ok (-1)%Z.
Proof. split; [exact ex_weyl|]. vm_compute. auto. Qed.
(** type A2 on generators 1, 0: the twist exchanges the generators *)
Example C73_ex : longest ex_W = Ok [1; 3; 5; 1] /\ w_max_length ex_W = Ok 10 /\ Chevalley_twist ex_W = Ok (map Some [0; 1; 2; 3]) /\
  (run W <- make_weyl 3 [mk_comp "A" 0 [1; 2]; mk_comp "A" 2 [0]]; Chevalley_twist W) = Ok (map Some [0; 2; 1]).
Proof. vm_compute. auto. Qed.
Example C75_ex : weyl_of 4 ex_A ex_W /\ commutes ex_W 0 3 = Ok false /\ commutes ex_W 2 3 = Ok true /\
  (run w <- element ex_W [0; 3; 2]; translation ex_W w [3; 1; 1; 0]) = element ex_W [3; 0; 1].
Proof. split; [exact ex_weyl|]. vm_compute. auto. Qed.

(** *** C74: order, numbering *)
Definition type_of (comps : list component) : list (ascii * nat) := map (fun c => (c_type c, length (c_position c))) comps.
Theorem C74_order n A comps W : describes n A comps -> n <= 32 -> make_weyl n comps = Ok W ->
  exists d, w_order W = Ok (d, false) /\ stands_for d (weyl_order (type_of comps)).
Proof. intros D RM MK. apply (w_order_ok n A comps W D RM MK). Qed.
Print Assumptions C74_order.
Example C74_order_ex : describes 4 ex_A ex_comps /\ w_order ex_W = Ok ([5; 1; 0; 0; 0; 0; 0; 0; 0; 0; 0], false)%Z /\ weyl_order (type_of ex_comps) = 96%Z.
Proof. split; [exact ex_describes|]. vm_compute. auto. Qed.
Theorem C74_to_big_int n A comps W w u : describes n A comps -> n <= 32 -> make_weyl n comps = Ok W -> over n u -> element W u = Ok w ->
  exists k, to_big_int W w = Ok k /\ (0 <= k < weyl_order (type_of comps))%Z /\ to_WeylElt W k = Ok w.
Proof.
  intros D RM MK O E. apply (element_X n A comps W D RM MK) in E; [|auto]. pose proof (X_valid n A comps W w u E) as V. pose proof (G n A comps W D RM MK) as GG.
  pose proof (radix_range n W w V n 0 ltac:(lia)) as RG. exists (radix W n 0 w). split; [apply (to_big_int_ok n _ _ _ W GG w V)|].
  split; [change (type_of comps) with (lie_type comps); now rewrite <- (order_ok n A comps W D RM MK)|].
  pose proof (to_WeylElt_ok n _ _ _ W GG _ RG) as M. apply gives_sure in M. destruct M as (w' & F & V' & Q). rewrite F. f_equal. apply (radix_inj n W w' w V' V Q).
Qed.
Print Assumptions C74_to_big_int.
Theorem C74_to_WeylElt n A comps W k : describes n A comps -> n <= 32 -> make_weyl n comps = Ok W -> (0 <= k < weyl_order (type_of comps))%Z ->
  exists w u, to_WeylElt W k = Ok w /\ over n u /\ element W u = Ok w /\ to_big_int W w = Ok k.
Proof.
  intros D RM MK H. pose proof (G n A comps W D RM MK) as GG. change (type_of comps) with (lie_type comps) in H. rewrite <- (order_ok n A comps W D RM MK) in H.
  pose proof (to_WeylElt_ok n _ _ _ W GG _ H) as M. apply gives_sure in M. destruct M as (w & F & V & Q).
  pose proof (X_of_valid n A comps W D RM MK w V) as R. exists w. eexists. split; [auto|]. split; [apply R|]. split; [apply (element_is n A comps W D RM MK _ _ R)|].
  rewrite (to_big_int_ok n _ _ _ W GG w V). now rewrite Q.
Qed.
Print Assumptions C74_to_WeylElt.
Example C74_number_ex : describes 4 ex_A ex_comps /\ (run w <- element ex_W [0; 3; 2; 1]; to_big_int ex_W w) = Ok 60%Z /\ to_WeylElt ex_W 60 = element ex_W [0; 3; 2; 1] /\
  to_WeylElt ex_W 95 = longest ex_W.
Proof. split; [exact ex_describes|]. vm_compute. auto. Qed.

(** *** C76: conjugacy classes *)
Theorem C76_conjugacy_class n A comps W w u fuel : describes n A comps -> n <= 32 -> make_weyl n comps = Ok W -> over n u -> element W u = Ok w ->
  (weyl_order (type_of comps) <= Z.of_nat fuel)%Z ->
  exists l, conjugacy_class W fuel w = Ok l /\ StronglySorted (fun a b => elt_lt a b = true) l /\ NoDup l /\
    forall x, In x l <-> exists g, over n g /\ element W (g ++ u ++ rev g) = Ok x.
Proof.
  intros D RM MK O E HF. apply (element_X n A comps W D RM MK) in E; [|auto]. pose proof (X_valid n A comps W w u E) as V. pose proof (G n A comps W D RM MK) as GG.
  set (c := fun s v => match conjugate W v s with Ok x => x | Fail _ => [] end).
  assert (CX : forall v r s, X n A comps W v r -> s < n -> conjugate W v s = Ok (c s v) /\ X n A comps W (c s v) (s :: r ++ [s])).
  { intros v r s R Hs. pose proof (conjugate_X n A comps W D RM MK v r s R Hs) as M. apply gives_sure in M. destruct M as (x & F & RX). unfold c. rewrite F. auto. }
  assert (ST : forall v s, valid n W v -> s < n -> conjugate W v s = Ok (c s v)) by (intros v s Vv Hs; apply (CX v _ s (X_of_valid n A comps W D RM MK v Vv) Hs)).
  assert (CV : forall s v, s < n -> valid n W v -> valid n W (c s v)).
  { intros s v Hs Vv. destruct (CX v _ s (X_of_valid n A comps W D RM MK v Vv) Hs) as [_ R]. exact (X_valid n A comps W _ _ R). }
  assert (CC : forall s v, s < n -> valid n W v -> c s (c s v) = v).
  { intros s v Hs Vv. pose proof (X_of_valid n A comps W D RM MK v Vv) as R. destruct (CX v _ s R Hs) as [_ R1]. destruct (CX _ _ s R1 Hs) as [_ R2].
    apply (X_unique n A comps W D RM MK _ _ _ R2). apply (X_same n A comps W D RM MK _ _ _ R). set (r := map _ _) in *. apply same_sym.
    change (s :: (s :: r ++ [s]) ++ [s]) with ([s; s] ++ (r ++ [s]) ++ [s]). rewrite <- (app_assoc r). apply (same_app _ _ [s; s] []); [now apply same_square|]. now apply same_undo. }
  pose proof (class_loop_ok n c (valid n W) CV ltac:(intros s v v' Hs Vv Vv' Q; rewrite <- (CC s v), <- (CC s v') by auto; now rewrite Q) W (conjugate W) (Z.to_nat (weyl_order (type_of comps)))
    (rank_is n A comps W D RM MK) ST) as M.
  specialize (M (elements_bound n A comps W D RM MK)).
  specialize (M w fuel V ltac:(lia)). apply gives_sure in M. destruct M as (l & F & S & P). exists l. split; [exact F|]. split; [auto|]. split; [now apply sorted_nodup|].
  intros x. rewrite P. split.
  - intros R. induction R as [|x s Hs R IH].
    + exists []. split; [apply over_nil|]. cbn [app rev]. rewrite app_nil_r. now apply (element_is n A comps W D RM MK).
    + destruct IH as (g & Og & Eg). exists (s :: g). split; [now apply over_cons|]. apply (element_X n A comps W D RM MK) in Eg; [|repeat (apply over_app; split; auto); now apply over_rev].
      destruct (CX x _ s Eg Hs) as [_ RX]. apply (element_is n A comps W D RM MK). cbn [app rev]. rewrite !app_assoc in *. exact RX.
  - intros (g & Og & Eg). revert x Eg. induction g as [|s g IH]; intros x Eg.
    + cbn [app rev] in Eg. rewrite app_nil_r in Eg. apply (element_X n A comps W D RM MK) in Eg; [|auto]. rewrite (X_unique n A comps W D RM MK _ _ _ Eg E). constructor.
    + apply over_cons in Og. destruct Og as [Hs Og]. destruct (C70_element n A W (g ++ u ++ rev g)) as (y & Ey & _).
      * exists comps. auto.
      * repeat (apply over_app; split; auto); now apply over_rev.
      * pose proof (IH Og y Ey) as RY. apply (element_X n A comps W D RM MK) in Ey; [|repeat (apply over_app; split; auto); now apply over_rev].
        destruct (CX y _ s Ey Hs) as [_ RX]. assert (x = c s y) as ->; [|now constructor].
        apply (element_X n A comps W D RM MK) in Eg; [|apply over_app; split; [now apply over_cons|]; apply over_app; split; [auto|]; apply over_rev; now apply over_cons].
        apply (X_unique n A comps W D RM MK _ _ _ Eg). cbn [app rev]. rewrite !app_assoc in *. exact RX.
Qed.
Print Assumptions C76_conjugacy_class.
Example C76_ex : describes 4 ex_A ex_comps /\ (run w <- element ex_W [0; 1]; run l <- conjugacy_class ex_W 96 w; Ok (length l)) = Ok 6 /\
  (run w <- element ex_W [0; 3; 2]; run l <- conjugacy_class ex_W 96 w; Ok (length l)) = Ok 8.
Proof. split; [exact ex_describes|]. vm_compute. auto. Qed.
