(** Subspaces and subquotients over the field with two elements: proofs *)

From Coq Require Import List Arith NArith ZArith Lia Bool Permutation.
From Verif Require Import VecModel VecProofs RunModel RunProofs F2Model F2Spec F2Basics F2Proofs F2Solve F2Kernel F2Section F2Ops SubqModel SubqSpec.
Import ListNotations.
Open Scope nat_scope.

(** the object [s] is the canonical description of the subspace [V] *)
Definition represents (n : nat) (V : N -> Prop) (s : subspace) : Prop :=
  ss_rank s = n /\ Forall (sized n) (ss_basis s) /\ canonical_basis n V (map data (ss_basis s)) (ss_support s).
(** the object [q] is the canonical description of [V] modulo [W] *)
Definition represents_quotient (n : nat) (V W : N -> Prop) (q : subquotient) : Prop :=
  represents n V (sq_space q) /\ represents n W (sq_sub q) /\ (forall v, W v -> V v) /\
  within (length (ss_basis (sq_space q))) (sq_rel q) /\
  forall k p, nth_error (positions_of n (ss_support (sq_space q))) k = Some p ->
    coord (sq_rel q) k = negb (coord (ss_support (sq_sub q)) p).

Lemma span_subspace n b : (forall x, In x b -> within n x) -> is_subspace n (in_span b).
Proof. intros H. split; [apply span_0|]. split; [apply span_xor|]. now apply span_within. Qed.
Lemma canonical_subspace n V b t : canonical_basis n V b t -> is_subspace n V.
Proof.
  intros (_ & W & _ & H). destruct (span_subspace n b W) as (A & B & C). split; [now apply H|]. split.
  - intros v w Hv Hw. apply H. apply B; now apply H.
  - intros v Hv. apply C. now apply H.
Qed.
Lemma represents_subspace n V s : represents n V s -> is_subspace n V.
Proof. intros (_ & _ & H). eapply canonical_subspace. exact H. Qed.
Lemma in_positions_of n t p : In p (positions_of n t) <-> p < n /\ coord t p = true.
Proof. exact (in_positions n t p). Qed.
Lemma represents_ext n V V' s : (forall v, V v <-> V' v) -> represents n V s -> represents n V' s.
Proof. intros H (A & B & C & D0 & E & F). split; [auto|]. split; [auto|]. split; [auto|]. split; [auto|]. split; [auto|]. intros v. now rewrite <- H. Qed.
Lemma sized_ext n v w : sized n v -> sized n w -> (forall i, i < n -> coord (data v) i = coord (data w) i) -> v = w.
Proof.
  intros [A B] [C E] H. destruct v as [x a], w as [y b]. cbn in *. f_equal; [|congruence]. now apply (within_ext n).
Qed.

Section Dim.
Variable dim : nat.

(** *** bit sets *)

Lemma coord_complement s n p : coord (bs_complement s n) p = xorb (coord s p) (p <? n).
Proof. unfold bs_complement. now rewrite coord_lxor, coord_ones. Qed.
Lemma coord_minus s t p : coord (bs_minus s t) p = coord s p && negb (coord t p).
Proof. apply N.ldiff_spec. Qed.
Lemma bs_slice_ok n s t : n <= dim -> within n t ->
  gives (bs_slice dim s t) (fun r => within (length (positions_of n t)) r /\
    forall k p, nth_error (positions_of n t) k = Some p -> coord r k = coord s p) sure.
Proof.
  intros Hn W. unfold bs_slice. rewrite (positions_within dim n t Hn W). set (f := positions_of n t).
  assert (Lf : length f <= dim) by (pose proof (positions_length t n); unfold f; lia).
  eapply gives_bind.
  - apply (gives_each (fun i '(r, c) => c = i /\ within i r /\ forall k p, k < i -> nth_error f k = Some p -> coord r k = coord s p)
      f _ _ (fun '(r, c) => within (length f) r /\ forall k p, nth_error f k = Some p -> coord r k = coord s p)).
    + split; [auto|]. split; [apply within_0|]. intros; lia.
    + intros i p [r c] E (-> & Wr & H). assert (Hp : p < dim).
      { apply nth_error_In in E. apply in_positions_of in E. lia. }
      assert (Hi : i < length f) by (apply nth_error_Some; congruence).
      rewrite test_ok by auto. cbn [bind]. destruct (coord s p) eqn:B.
      * eapply gives_bind; [apply gives_assign with (P := fun s' => forall j, coord s' j = if j =? i then true else coord r j); [lia|auto]|].
        intros r' Hr. cbv beta in Hr. cbn [gives]. split; [auto|]. split.
        -- intros j Hj. rewrite Hr. destruct (Nat.eqb_spec j i); [lia|]. apply Wr. lia.
        -- intros k q Hk Eq. rewrite Hr. destruct (Nat.eqb_spec k i) as [->|N]; [congruence|]. apply H; auto. lia.
      * cbn [gives]. split; [auto|]. split; [eapply within_mono; [|exact Wr]; lia|].
        intros k q Hk Eq. destruct (Nat.eq_dec k i) as [->|N]; [|apply H; auto; lia].
        rewrite Wr by lia. congruence.
    + intros [r c] (-> & Wr & H). split; [auto|]. intros k p E. apply H; auto. apply nth_error_Some. congruence.
  - intros [r c] H. exact H.
Qed.

(** *** subspaces *)

Lemma ss_zero_ok n : represents n (fun v => v = 0%N) (ss_zero n).
Proof.
  split; [auto|]. split; [constructor|]. split; [apply within_0|]. split; [intros x []|]. split.
  - replace (positions_of n (ss_support (ss_zero n))) with (@nil nat).
    + constructor; auto; intros; destruct i; discriminate.
    + symmetry. unfold positions_of. cbn [ss_support ss_zero]. induction (seq 0 n) as [|x l IH]; [auto|]. cbn [filter]. now rewrite coord_0.
  - intros v. split; [intros ->; apply span_0|apply span_nil].
Qed.
Lemma ss_of_list_ok n b : n <= dim -> Forall (sized n) b -> gives (ss_of_list dim b n) (represents n (in_span (D b))) sure.
Proof.
  intros Hn HB. unfold ss_of_list. eapply gives_bind; [exact (Gauss_Jordan_ok dim n b Hn HB)|].
  intros [t r] (W & S & R & P). split; [auto|]. split; [auto|]. split; [auto|]. split; [now apply sized_D|]. split; [auto|].
  intros v. symmetry. apply P.
Qed.
Lemma ss_of_matrix_ok M : rows M <= dim -> is_matrix (rows M) (ncols M) (cols M) ->
  gives (ss_of_matrix dim M) (represents (rows M) (in_span (cols M))) sure.
Proof.
  intros Hn IM. unfold ss_of_matrix. eapply gives_bind; [exact (bm_image_ok dim (rows M) M Hn eq_refl IM)|].
  intros b [HB HS]. pose proof (ss_of_list_ok (rows M) b Hn HB) as G. unfold ss_of_list in G.
  eapply gives_mono; [exact G|]. intros s. apply represents_ext. intros v. symmetry. apply HS.
Qed.

Section Space.
Variables (n : nat) (V : N -> Prop) (s : subspace).
Hypothesis Hn : n <= dim.
Hypothesis R : represents n V s.

Notation f := (positions_of n (ss_support s)).
Notation b := (ss_basis s).

Lemma space_reduced : reduced (D b) f.
Proof. destruct R as (_ & _ & _ & _ & E & _). now apply echelon_reduced. Qed.
Lemma space_length : length b = length f.
Proof. rewrite <- (map_length data b). apply (rd_length _ _ space_reduced). Qed.
Lemma space_dim_le : length b <= n.
Proof. rewrite space_length. apply positions_length. Qed.
Lemma space_span v : V v <-> in_span (D b) v.
Proof. destruct R as (_ & _ & _ & _ & _ & H). apply H. Qed.
Lemma space_within v : V v -> within n v.
Proof. destruct (represents_subspace n V s R) as (_ & _ & H). apply H. Qed.
Lemma space_xor v w : V v -> V w -> V (N.lxor v w).
Proof. destruct (represents_subspace n V s R) as (_ & H & _). apply H. Qed.
Lemma space_xor_l v w : V w -> V (N.lxor v w) -> V v.
Proof. intros A B. apply space_span. apply (span_xor_l _ v w); now apply space_span. Qed.
Lemma space_zero v : V v -> (forall p, coord (ss_support s) p = true -> coord v p = false) -> v = 0%N.
Proof.
  intros Hv Z. apply (reduced_zero (D b) f); [apply space_reduced|now apply space_span|].
  intros p Hp. apply Z. now apply in_positions_of in Hp.
Qed.
Lemma support_within : within n (ss_support s).
Proof. destruct R as (_ & _ & H & _). exact H. Qed.

Lemma slice_ok v : sized n v -> gives (bv_slice dim v (ss_support s)) (fun w => sized (length b) w /\
    forall k p, nth_error f k = Some p -> coord (data w) k = coord (data v) p) sure.
Proof.
  intros [W Z]. eapply gives_mono; [apply (bv_slice_ok dim v); lia|]. rewrite Z, space_length. auto.
Qed.
Lemma fromBasis_ok x : ss_fromBasis dim s x = Ok (mk_bv (lincomb (coord (data x)) (D b)) n).
Proof.
  unfold ss_fromBasis. rewrite combination_ok by (pose proof space_dim_le; lia). destruct R as (-> & _). reflexivity.
Qed.
Lemma lincomb_space c : V (lincomb c (D b)).
Proof. apply space_span. now exists c. Qed.
Lemma lincomb_at c k p : nth_error f k = Some p -> coord (lincomb c (D b)) p = c k.
Proof.
  intros E. replace p with (nth k f 0) by now apply nth_error_nth. apply reduced_coords; [apply space_reduced|].
  rewrite map_length, space_length. apply nth_error_Some. congruence.
Qed.
Lemma expand_space v : V v -> v = lincomb (fun k => coord v (nth k f 0)) (D b).
Proof. intros Hv. apply reduced_expand; [apply space_reduced|now apply space_span]. Qed.

Lemma representative_ok v : sized n v -> gives (representative dim s v) (fun r => sized n r /\ V (N.lxor (data v) (data r)) /\
    forall p, coord (ss_support s) p = true -> coord (data r) p = false) sure.
Proof.
  intros Sv. unfold representative. eapply gives_bind; [now apply slice_ok|]. intros pv [Sp Hp].
  change (combination dim b (ss_rank s) (data pv)) with (ss_fromBasis dim s pv). rewrite fromBasis_ok. cbn [bind gives].
  assert (X : V (lincomb (coord (data pv)) (D b))) by apply lincomb_space. split; [|split].
  - apply sized_add; [auto|]. split; [now apply space_within|auto].
  - unfold bv_add. cbn [data]. now rewrite lxor_cancel.
  - intros p Ep. assert (I : In p f) by (apply in_positions_of; split; [now apply (within_lt n _ p support_within)|auto]).
    apply In_nth_error in I. destruct I as [k Ek]. unfold bv_add. cbn [data]. rewrite coord_lxor, (lincomb_at _ k p Ek), (Hp k p Ek).
    apply xorb_nilpotent.
Qed.
(** the representative is determined by the class *)
Lemma representative_unique v w : sized n v -> sized n w -> gives (representative dim s v) (fun r =>
  gives (representative dim s w) (fun r' => r = r' <-> V (N.lxor (data v) (data w))) sure) sure.
Proof.
  intros Sv Sw. eapply gives_mono; [now apply representative_ok|]. intros r (Sr & Hr & Zr).
  eapply gives_mono; [now apply representative_ok|]. intros r' (Sr' & Hr' & Zr'). split.
  - intros <-. replace (N.lxor (data v) (data w)) with (N.lxor (N.lxor (data v) (data r)) (N.lxor (data w) (data r))); [now apply space_xor|].
    rewrite (N.lxor_comm (data w)), N.lxor_assoc. now rewrite lxor_cancel.
  - intros H. assert (X : V (N.lxor (data r) (data r'))).
    { replace (N.lxor (data r) (data r')) with (N.lxor (N.lxor (N.lxor (data v) (data w)) (N.lxor (data v) (data r))) (N.lxor (data w) (data r'))).
      - apply space_xor; [now apply space_xor|auto].
      - apply coord_ext. intros i. rewrite !coord_lxor. destruct (coord (data v) i), (coord (data w) i), (coord (data r) i), (coord (data r') i); auto. }
    apply space_zero in X.
    + apply N.lxor_eq in X. destruct Sr as [_ E1], Sr' as [_ E2], r, r'. cbn in *. congruence.
    + intros p Hp. rewrite coord_lxor, Zr, Zr'; auto.
Qed.
Lemma contains_ok v : sized n v -> gives (ss_contains dim s v) (fun c => c = true <-> V (data v)) sure.
Proof.
  intros Sv. unfold ss_contains. eapply gives_bind; [now apply representative_ok|]. intros r (Sr & Hr & Zr). cbn [gives].
  rewrite isZero_spec. split.
  - intros E. now rewrite E, N.lxor_0_r in Hr.
  - intros Hv. apply space_zero; [|auto]. apply (space_xor_l _ (data v)); [auto|]. now rewrite N.lxor_comm.
Qed.
Lemma contains_all_ok m : Forall (sized n) m -> gives (ss_contains_all dim s m) (fun c => c = true <-> forall v, In v m -> V (data v)) sure.
Proof.
  induction m as [|v m IH]; intros HS; cbn [ss_contains_all]; [split; [intros _ v []|auto]|].
  inversion HS as [|? ? Sv Sm]; subst. eapply gives_bind; [now apply contains_ok|]. intros c Hc. cbv beta in Hc. destruct c; cbn [negb].
  - eapply gives_mono; [now apply IH|]. intros d Hd. cbv beta in Hd. rewrite Hd. split; [|intros H x I; apply H; now right].
    intros H x [<-|I]; [now apply Hc|auto].
  - cbn [gives]. split; [discriminate|]. intros H. assert (X : V (data v)) by (apply H; now left). now apply Hc in X.
Qed.
Lemma toBasis_ok v : sized n v -> gives (ss_toBasis dim s v) (fun w => sized (ss_dimension s) w /\
   (forall k p, nth_error f k = Some p -> coord (data w) k = coord (data v) p) /\
   (V (data v) -> lincomb (coord (data w)) (D b) = data v)) sure.
Proof.
  intros Sv. eapply gives_mono; [now apply slice_ok|]. intros w [Sw Hw]. split; [auto|]. split; [auto|]. intros Hv.
  rewrite (expand_space (data v) Hv). apply lincomb_ext. intros k Hk. rewrite map_length, space_length in Hk. apply Hw.
  now apply nth_error_nth'.
Qed.
Lemma from_to v : sized n v -> V (data v) -> gives (ss_toBasis dim s v) (fun w => ss_fromBasis dim s w = Ok v) sure.
Proof.
  intros Sv Hv. eapply gives_mono; [now apply toBasis_ok|]. intros w (Sw & _ & Hw). rewrite fromBasis_ok, Hw by auto.
  destruct Sv as [_ E], v. cbn in *. congruence.
Qed.
Lemma to_from x : sized (ss_dimension s) x -> gives (ss_fromBasis dim s x) (fun v => sized n v /\ V (data v) /\ ss_toBasis dim s v = Ok x) sure.
Proof.
  intros Sx. rewrite fromBasis_ok. cbn [gives data]. assert (X := lincomb_space (coord (data x))).
  assert (Sv : sized n (mk_bv (lincomb (coord (data x)) (D b)) n)) by (split; [now apply space_within|auto]).
  split; [auto|]. split; [auto|]. pose proof (toBasis_ok _ Sv) as G. destruct (ss_toBasis dim s _) as [w|]; [|contradiction].
  destruct G as (Sw & Hw & _). f_equal. apply (sized_ext (ss_dimension s)); auto. intros k Hk.
  assert (E : nth_error f k = Some (nth k f 0)) by (apply nth_error_nth'; rewrite <- space_length; exact Hk).
  rewrite (Hw k _ E). cbn [data]. now apply lincomb_at.
Qed.

(** the orthogonal space *)
Lemma scalar_perp_span x : (forall e, In e (D b) -> scalar n e x = false) <-> forall v, V v -> scalar n v x = false.
Proof.
  split.
  - intros H v Hv. apply space_span in Hv. revert v Hv. apply span_least; [apply scalar_0| |auto].
    intros v w A B. now rewrite scalar_xor, A, B.
  - intros H e He. apply H. apply space_span. now apply span_in.
Qed.
Lemma positions_perp : positions dim (support_perp s) = free_positions (ss_support s) n.
Proof.
  unfold support_perp. destruct R as (-> & _ & W & _).
  rewrite (positions_within dim n); [|auto|].
  - unfold positions_of, free_positions. apply filter_ext_in. intros p I. apply in_seq in I. rewrite coord_complement.
    destruct (Nat.ltb_spec p n); [apply xorb_true_r|lia].
  - intros i Hi. rewrite coord_complement. destruct (Nat.ltb_spec i n); [lia|]. rewrite W by auto. auto.
Qed.
Lemma basis_perp_ok : gives (basis_perp dim s) (fun r => Forall (sized n) r /\ length r = n - ss_dimension s /\ basis_of (perp n V) (D r)) sure.
Proof.
  unfold basis_perp. rewrite positions_perp. set (J := free_positions (ss_support s) n).
  apply (gives_each (fun i r => length r = i /\ Forall2 (generator n f (D b)) (firstn i J) r)).
  - split; constructor.
  - intros i j r E [L H]. assert (Ij : j < n /\ coord (ss_support s) j = false).
    { apply nth_error_In in E. unfold J, free_positions in E. apply filter_In in E. rewrite in_seq in E. destruct E as [E1 E2].
      split; [lia|]. now apply negb_true_iff in E2. }
    destruct R as (ER & SB & W & _). rewrite ER. fold (ss_basis s) in *.
    pose proof (kernel_vector_ok dim n (ss_support s) b j Hn W SB space_reduced (proj1 Ij) (proj2 Ij)) as G.
    unfold kernel_vector in G.
    assert (X : forall A B C (m : res A) (g : A -> res B) (h : B -> res C), bind (bind m g) h = bind m (fun x => bind (g x) h)) by (intros ? ? ? []; auto).
    match type of G with gives ?m _ _ => assert (G' : gives (run gen <- m; Ok (r ++ [gen])) (fun r' => length r' = S i /\
        Forall2 (generator n f (D b)) (firstn (S i) J) r') sure) end.
    { eapply gives_bind; [exact G|]. intros gen HG. split; [rewrite app_length; cbn; lia|]. rewrite (firstn_S J i j E).
      apply Forall2_app; [auto|]. constructor; [auto|constructor]. }
    rewrite X in G'. destruct (bv_unit dim n j) as [u|e]; [|exact G']. cbn [bind] in G' |- *. rewrite X in G'.
    destruct (each _ _ (u, 0)) as [[g c]|]; exact G'.
  - intros r [L H]. rewrite firstn_all2 in H by lia. destruct R as (ER & SB & W & WD & _).
    pose proof (kernel_basis n (ss_support s) b r W WD space_reduced H) as KB.
    split; [|split].
    + apply Forall2_nth in H. destruct H as [EL H]. apply Forall_forall. intros x Hx. apply In_nth_error in Hx. destruct Hx as [i Ei].
      assert (Hi : i < length J) by (rewrite EL; apply nth_error_Some; congruence).
      destruct (nth_error J i) as [j|] eqn:Ej; [|apply nth_error_None in Ej; lia]. destruct (H i j x Ej Ei) as (Sx & _). exact Sx.
    + apply Forall2_nth in H. destruct H as [EL _]. rewrite <- EL. unfold ss_dimension. rewrite space_length. unfold J, free_positions, positions_of.
      assert (X : forall (g : nat -> bool) l, length (filter g l) + length (filter (fun p => negb (g p)) l) = length l).
      { intros g l. induction l as [|y l IH]; [auto|]. cbn [filter]. destruct (g y); cbn [negb length]; lia. }
      specialize (X (coord (ss_support s)) (seq 0 n)). rewrite seq_length in X. lia.
    + destruct KB as [I HS]. split; [auto|]. intros v. rewrite <- HS. unfold perp. now rewrite scalar_perp_span.
Qed.

(** the image of the space *)
Lemma apply_ok M : rows M <= dim -> ncols M = n -> is_matrix (rows M) (ncols M) (cols M) ->
  gives (ss_apply dim s M) (represents (rows M) (direct_image (cols M) V)) sure.
Proof.
  intros Hr Hc [_ IM]. unfold ss_apply, ss_dimension. eapply gives_bind.
  - apply (gives_upto0 (fun i r => r = map (fun x => mk_bv (image_of (cols M) (data x)) (rows M)) (firstn i b)) (length b) _ []
      (fun r => r = map (fun x => mk_bv (image_of (cols M) (data x)) (rows M)) b)); [auto| |].
    + intros i r Hi ->. destruct (nth_error b i) as [x|] eqn:E; [|apply nth_error_None in E; lia].
      assert (EG : vget b i = Ok x) by (unfold vget; change (get b i) with (nth_error b i); now rewrite E). rewrite EG. cbn [bind].
      rewrite bm_apply_ok by lia. cbn [bind gives]. rewrite (firstn_S b i x E), map_app. reflexivity.
    + intros r ->. now rewrite firstn_all.
  - intros r Er. cbv beta in Er. subst r.
    eapply gives_mono; [apply ss_of_list_ok; [auto|]|].
    + apply Forall_forall. intros x Hx. apply in_map_iff in Hx. destruct Hx as (y & <- & Hy). split; [|auto]. cbn [data].
      apply (span_within (rows M) (cols M)); [auto|]. now exists (coord (data y)).
    + intros s'. apply represents_ext. intros y. rewrite map_map. cbn [data].
      assert (XI : forall u v, image_of (cols M) (N.lxor u v) = N.lxor (image_of (cols M) u) (image_of (cols M) v)).
      { intros u v. unfold image_of. rewrite <- lincomb_xor. apply lincomb_ext. intros. apply coord_lxor. }
      split.
      * revert y. apply span_least.
        -- exists 0%N. split; [apply space_span, span_0|]. unfold image_of. apply lincomb_0. intros. apply coord_0.
        -- intros u v (x & Hx & <-) (x' & Hx' & <-). exists (N.lxor x x'). split; [now apply space_xor|apply XI].
        -- intros u Hu. apply in_map_iff in Hu. destruct Hu as (x & <- & Hx). exists (data x). split; [|auto].
           apply space_span. apply span_in. now apply in_map.
      * intros (x & Hx & <-). apply space_span in Hx. revert x Hx.
        apply (span_least (fun x => in_span (map (fun x0 => image_of (cols M) (data x0)) b) (image_of (cols M) x))).
        -- replace (image_of (cols M) 0) with 0%N; [apply span_0|]. symmetry. apply lincomb_0. intros. apply coord_0.
        -- intros u v A B. rewrite XI. now apply span_xor.
        -- intros x Hx. apply in_map_iff in Hx. destruct Hx as (z & <- & Hz). apply span_in.
           apply (in_map (fun x0 => image_of (cols M) (data x0))). auto.
Qed.
End Space.
End Dim.
