(** Proofs about the other operations on graphs. *)

From Coq Require Import List Arith Bool Lia Relations Sorted.
From Verif Require Import VecModel VecProofs PermProofs PartModel PartSpec PartOrbits GraphModel GraphSpec GraphCells.
Import ListNotations.
Open Scope nat_scope.
Open Scope vec_scope.

Lemma get_g (g : graph) x l : get g x = Some l -> nth x g [] = l.
Proof. intros E. apply nth_error_nth. exact E. Qed.

(** ** Reversal *)

Lemma repeat_snoc {A} (x : A) k : repeat x k ++ [x] = repeat x (S k).
Proof. induction k as [|k IH]; [reflexivity|]. cbn [repeat app]. rewrite IH. reflexivity. Qed.

Lemma reverseEdges_ok g : well_formed g -> exists h, reverseEdges g = Some h /\ length h = length g /\
  forall y, y < length g -> nth_error h y = Some (flat_map (fun x => repeat x (count_occ Nat.eq_dec (nth x g []) y)) (seq 0 (length g))).
Proof.
  intros wf. unfold reverseEdges.
  match goal with |- exists _, for_up _ 0 ?body ?st = _ /\ _ =>
    destruct (for_up_rule (fun k h => length h = length g /\ forall y, y < length g ->
      get h y = Some (flat_map (fun x => repeat x (count_occ Nat.eq_dec (nth x g []) y)) (seq 0 k))) (length g) 0 body st) as (h & E & L & A) end.
  - split; [apply repeat_length|]. intros y Hy. rewrite get_repeat. destruct (Nat.ltb_spec y (length g)); [reflexivity|lia].
  - intros x h Hx (L & A). destruct (get_some g x ltac:(lia)) as [el El]. rewrite El.
    match goal with |- exists _, for_each el ?body ?st = _ /\ _ =>
      destruct (for_each_rule (fun pre h' => length h' = length g /\ forall y, y < length g ->
        get h' y = Some (flat_map (fun x => repeat x (count_occ Nat.eq_dec (nth x g []) y)) (seq 0 x) ++ repeat x (count_occ Nat.eq_dec pre y))) el body st)
        as (h' & E' & L' & A') end.
    + split; [exact L|]. intros y Hy. cbn [count_occ repeat]. rewrite app_nil_r. apply A. exact Hy.
    + intros pre y post h' Ee (L' & A'). assert (Ly : y < length g).
      { apply (wf el y); [eapply get_In; exact El|rewrite Ee; apply in_or_app; right; left; reflexivity]. }
      rewrite (A' y Ly). match goal with |- context [put h' y ?t] => destruct (put_spec h' y t ltac:(lia)) as (h2 & Ep & Lp & Gp) end.
      exists h2. split; [exact Ep|]. split; [congruence|]. intros z Hz. rewrite Gp, count_occ_app. cbn [count_occ].
      destruct (Nat.eqb_spec z y) as [->|N].
      * destruct (Nat.eq_dec y y) as [_|]; [|contradiction]. rewrite <- app_assoc, repeat_snoc, Nat.add_1_r. reflexivity.
      * destruct (Nat.eq_dec y z) as [|_]; [congruence|]. rewrite Nat.add_0_r. apply A'. exact Hz.
    + exists h'. split; [exact E'|]. split; [exact L'|]. intros y Hy. rewrite (A' y Hy), (seq_S x 0), flat_map_app. cbn [flat_map Nat.add].
      rewrite app_nil_r, (get_g g x el El). reflexivity.
  - exists h. split; [exact E|]. split; [exact L|]. exact A.
Qed.
Lemma reverseEdges_edge g h : well_formed g -> reverseEdges g = Some h -> forall x y, edge h y x <-> edge g x y.
Proof.
  intros wf E x y. destruct (reverseEdges_ok g wf) as (h' & E' & L & A). rewrite E in E'. injection E' as <-. split.
  - intros (l & El & I). assert (Ly : y < length g) by (rewrite <- L; eapply get_lt; exact El). rewrite (A y Ly) in El. injection El as <-.
    apply in_flat_map in I as (x' & Ix & I). assert (Q := I). apply repeat_spec in Q. subst x'. apply in_seq in Ix.
    exists (nth x g []). split; [apply (get_nth g x []); lia|]. apply (count_occ_In Nat.eq_dec). destruct (count_occ Nat.eq_dec (nth x g []) y); [destruct I|lia].
  - intros (l & El & I). assert (Ly : y < length g) by (eapply wf; [eapply nth_error_In; exact El|exact I]).
    eexists. split; [apply A; exact Ly|]. apply in_flat_map. exists x. split; [apply in_seq; apply get_lt in El; lia|].
    rewrite (get_g g x l El). apply (count_occ_In Nat.eq_dec) in I. destruct (count_occ Nat.eq_dec l y); [lia|left; reflexivity].
Qed.

Lemma reverseNumbering_ok g : exists h, reverseNumbering g = Some h /\ length h = length g /\
  forall x, x < length g -> nth_error h (length g - 1 - x) = Some (rev (map (fun y => length g - 1 - y) (nth x g []))).
Proof.
  unfold reverseNumbering. set (last := length g - 1).
  match goal with |- exists _, for_up _ 0 ?body ?st = _ /\ _ =>
    destruct (for_up_rule (fun k h => length h = length g /\ forall x, x < k -> x < length g ->
      get h (last - x) = Some (rev (map (fun y => last - y) (nth x g [])))) (length g) 0 body st) as (h & E & L & A) end.
  - split; [apply repeat_length|]. intros; lia.
  - intros x h Hx (L & A). destruct (get_some g x ltac:(lia)) as [el El]. rewrite El.
    match goal with |- exists _, match for_down _ ?body ?st with _ => _ end = _ /\ _ =>
      destruct (for_down_rule (fun j l => l = rev (map (fun y => last - y) (skipn j el))) (length el) body st) as (l & E' & A') end.
    + rewrite skipn_all. reflexivity.
    + intros j l Hj ->. destruct (get_some el j Hj) as [y Ey]. rewrite Ey. eexists. split; [reflexivity|].
      assert (Q : skipn j el = y :: skipn (S j) el).
      { clear -Ey. revert el Ey. induction j as [|j IH]; intros [|a el] Ey; try discriminate; cbn in Ey; [injection Ey as ->; reflexivity|]. cbn [skipn]. rewrite (IH el Ey). reflexivity. }
      rewrite Q. reflexivity.
    + rewrite E'. cbn [skipn] in A'. destruct (put_spec h (last - x) l ltac:(lia)) as (h2 & Ep & Lp & Gp). exists h2. split; [exact Ep|].
      split; [congruence|]. intros u Hu Lu. rewrite Gp. destruct (Nat.eqb_spec (last - u) (last - x)) as [Q|Q].
      * assert (u = x) as -> by (unfold last in Q; lia). rewrite (get_g g x el El), A'. reflexivity.
      * apply A; [|exact Lu]. assert (u <> x) by congruence. lia.
  - exists h. split; [exact E|]. split; [exact L|]. intros x Hx. apply A; [lia|exact Hx].
Qed.
Lemma reverseNumbering_edge g h : well_formed g -> reverseNumbering g = Some h ->
  forall x y, x < length g -> y < length g -> (edge h (length g - 1 - x) (length g - 1 - y) <-> edge g x y).
Proof.
  intros wf E x y Hx Hy. destruct (reverseNumbering_ok g) as (h' & E' & L & A). rewrite E in E'. injection E' as <-.
  unfold edge. rewrite (A x Hx). split.
  - intros (l & El & I). injection El as <-. rewrite <- in_rev in I. apply in_map_iff in I as (z & Q & I).
    exists (nth x g []). split; [apply (get_nth g x []); exact Hx|]. assert (Lz : z < length g).
    { eapply wf; [|exact I]. apply nth_In. exact Hx. }
    assert (z = y) as -> by lia. exact I.
  - intros (l & El & I). eexists. split; [reflexivity|]. rewrite <- in_rev. apply in_map_iff. exists y. split; [reflexivity|].
    rewrite (get_g g x l El). exact I.
Qed.

(** ** Binary search *)

Lemma sorted_le l : StronglySorted le l -> forall i j a b, i <= j -> get l i = Some a -> get l j = Some b -> a <= b.
Proof.
  intros S. induction S as [|x l S IH F]; intros i j a b H Ei Ej; [destruct i; discriminate|].
  destruct i as [|i], j as [|j]; try lia; cbn in Ei, Ej.
  - assert (a = b) by congruence. lia.
  - injection Ei as <-. rewrite Forall_forall in F. apply F. eapply get_In. exact Ej.
  - apply (IH i j); auto. lia.
Qed.
Lemma lower_bound_ok l x : StronglySorted le l -> forall fuel from len, len < fuel -> from + len <= length l ->
  (forall i a, i < from -> get l i = Some a -> a < x) -> (forall i a, from + len <= i -> get l i = Some a -> x <= a) ->
  exists k, lower_bound fuel l from len x = Some k /\ k <= length l /\
    (forall i a, i < k -> get l i = Some a -> a < x) /\ (forall i a, k <= i -> get l i = Some a -> x <= a).
Proof.
  intros S. induction fuel as [|f IH]; intros from len Hf Hl Below Above; [lia|]. cbn [lower_bound].
  destruct (Nat.eqb_spec len 0) as [->|N].
  - exists from. split; [reflexivity|]. split; [lia|]. split; [exact Below|]. intros i a Hi. apply Above. lia.
  - cbv zeta. assert (Nat.div2 len < len) by (apply Nat.lt_div2; lia).
    destruct (get_some l (from + Nat.div2 len) ltac:(lia)) as [y Ey]. rewrite Ey. destruct (Nat.ltb_spec y x) as [Q|Q].
    + apply IH; [lia|lia| |].
      * intros i a Hi Ea. pose proof (sorted_le l S i (from + Nat.div2 len) a y ltac:(lia) Ea Ey). lia.
      * intros i a Hi. apply Above. lia.
    + apply IH; [lia|lia|exact Below|]. intros i a Hi Ea. pose proof (sorted_le l S (from + Nat.div2 len) i y a ltac:(lia) Ey Ea). lia.
Qed.
Lemma binary_search_ok l x : StronglySorted le l -> exists b, binary_search l x = Some b /\ (b = true <-> In x l).
Proof.
  intros S. unfold binary_search. destruct (lower_bound_ok l x S (Datatypes.S (length l)) 0 (length l)) as (k & E & Lk & B & A); try lia.
  { intros i a Hi Ea. apply get_lt in Ea. lia. }
  rewrite E. destruct (Nat.eqb_spec k (length l)) as [->|N].
  - exists false. split; [reflexivity|]. split; [discriminate|]. intros I. apply In_get in I as [i Ei]. specialize (B i x). apply get_lt in Ei as Li. specialize (B Li Ei). lia.
  - destruct (get_some l k ltac:(lia)) as [y Ey]. rewrite Ey. eexists. split; [reflexivity|]. rewrite negb_true_iff, Nat.ltb_ge. split.
    + intros H. specialize (A k y (le_n _) Ey). assert (y = x) as -> by lia. eapply get_In. exact Ey.
    + intros I. apply In_get in I as [i Ei]. destruct (Nat.lt_ge_cases i k) as [Q|Q]; [specialize (B i x Q Ei); lia|].
      exact (sorted_le l S k i y x Q Ey Ei).
Qed.

(** ** Joining components *)

Inductive rooted (M : list nat) : nat -> nat -> Prop :=
  | rooted_here u : get M u = Some u -> rooted M u u
  | rooted_up u m r : get M u = Some m -> m < u -> rooted M m r -> rooted M u r.
Definition lower (M : list nat) : Prop := forall u m, get M u = Some m -> m <= u.

Lemma rooted_exists M u : lower M -> u < length M -> exists r, rooted M u r.
Proof.
  intros Low. induction (lt_wf u) as [u _ IH]. intros Hu. destruct (get_some M u Hu) as [m Em].
  destruct (Nat.eq_dec m u) as [->|N]; [exists u; constructor; exact Em|]. pose proof (Low u m Em).
  destruct (IH m ltac:(lia) ltac:(lia)) as [r R]. exists r. apply (rooted_up M u m r Em); [lia|exact R].
Qed.
Lemma rooted_unique M u r s : rooted M u r -> rooted M u s -> r = s.
Proof.
  intros R. induction R as [u E|u m r E L R IH]; intros Q.
  - inversion Q as [u' E'|u' m' r' E' L' R']; subst; [reflexivity|]. assert (m' = u) by congruence. lia.
  - inversion Q as [u' E'|u' m' r' E' L' R']; subst; [assert (m = s) by congruence; lia|]. assert (m' = m) as -> by congruence. auto.
Qed.
Lemma rooted_root M u r : rooted M u r -> get M r = Some r /\ r <= u.
Proof. intros R. induction R as [u E|u m r E L R [IH1 IH2]]; [auto|]. split; [exact IH1|lia]. Qed.
Lemma rooted_lt M u r : rooted M u r -> u < length M.
Proof. intros R. destruct R as [u E|u m r E L R]; eapply get_lt; exact E. Qed.

Lemma climb_ok M u r : rooted M u r -> forall fuel comp, u <= fuel ->
  exists pa, climb fuel M u comp = Some (r, comp ++ pa) /\ forall c, In c pa -> rooted M c r /\ c <> r /\ c < length M.
Proof.
  intros R. induction R as [u E|u m r E L R IH]; intros fuel comp H.
  - exists []. rewrite app_nil_r. split; [|intros c []]. destruct fuel; cbn [climb]; rewrite E; destruct (Nat.ltb_spec u u); try lia; reflexivity.
  - destruct fuel as [|f]; [lia|]. cbn [climb]. rewrite E. destruct (Nat.ltb_spec m u); [|lia].
    destruct (IH f (comp ++ [u]) ltac:(lia)) as (pa & Ec & A). exists (u :: pa). rewrite Ec, <- app_assoc. split; [reflexivity|].
    intros c [<-|I]; [|apply A; exact I]. split; [apply (rooted_up M u m r E L R)|]. split; [|eapply get_lt; exact E].
    intros Q. apply rooted_root in R as [_ R]. lia.
Qed.
Lemma set_all (comp : list nat) (v : nat) (M : list nat) : (forall c, In c comp -> c < length M) ->
  exists M', for_each comp (fun c M => put M c v) M = Some M' /\ length M' = length M /\
    (forall c, In c comp -> get M' c = Some v) /\ (forall c, ~ In c comp -> get M' c = get M c).
Proof.
  intros H. destruct (for_each_rule (fun pre M' => length M' = length M /\ (forall c, In c pre -> get M' c = Some v) /\
    (forall c, ~ In c pre -> get M' c = get M c)) comp (fun c M => put M c v) M) as (M' & E & A).
  - split; [reflexivity|]. split; [intros c []|reflexivity].
  - intros pre c post M' Ec (A1 & A2 & A3). assert (Lc : c < length M') by (rewrite A1; apply H; rewrite Ec; apply in_or_app; right; left; reflexivity).
    destruct (put_spec M' c v Lc) as (M2 & Ep & Lp & Gp). exists M2. split; [exact Ep|]. split; [congruence|]. split; intros d I; rewrite Gp.
    + destruct (Nat.eqb_spec d c) as [->|N]; [reflexivity|]. apply A2. apply in_app_or in I as [I|[I|[]]]; [exact I|congruence].
    + destruct (Nat.eqb_spec d c) as [->|N]; [exfalso; apply I; apply in_or_app; right; left; reflexivity|]. apply A3.
      intros Q. apply I. apply in_or_app. left. exact Q.
  - exists M'. destruct A as (A1 & A2 & A3). auto.
Qed.

Lemma join_ok M i t a b : lower M -> rooted M i a -> rooted M t b ->
  exists M', join M i t = Some M' /\ length M' = length M /\ lower M' /\
    forall u r, rooted M u r -> rooted M' u (if (r =? a) || (r =? b) then Nat.min a b else r).
Proof.
  intros Low Ra Rb. unfold join. destruct (climb_ok M i a Ra i [] (le_n _)) as (pa & -> & Pa). cbn [app].
  destruct (climb_ok M t b Rb t pa (le_n _)) as (pb & -> & Pb).
  set (mx := if b <? a then [a] else if a <? b then [b] else []).
  assert (Sel : (if b <? a then (b, (pa ++ pb) ++ [a]) else if a <? b then (a, (pa ++ pb) ++ [b]) else (a, pa ++ pb)) = (Nat.min a b, (pa ++ pb) ++ mx)).
  { unfold mx. destruct (Nat.ltb_spec b a); [rewrite Nat.min_r by lia; reflexivity|]. destruct (Nat.ltb_spec a b); rewrite Nat.min_l by lia; [reflexivity|rewrite app_nil_r; reflexivity]. }
  rewrite Sel. set (comp := (pa ++ pb) ++ mx).
  pose proof (rooted_root M i a Ra) as [Ga La]. pose proof (rooted_root M t b Rb) as [Gb Lb].
  assert (InC : forall c, In c comp -> c < length M /\ (rooted M c a \/ rooted M c b) /\ Nat.min a b < c).
  { intros c I. unfold comp in I. apply in_app_or in I as [I|I]; [apply in_app_or in I as [I|I]|].
    - destruct (Pa c I) as (B1 & B2 & B3). split; [exact B3|]. split; [left; exact B1|]. apply rooted_root in B1. lia.
    - destruct (Pb c I) as (B1 & B2 & B3). split; [exact B3|]. split; [right; exact B1|]. apply rooted_root in B1. lia.
    - unfold mx in I. destruct (Nat.ltb_spec b a); [|destruct (Nat.ltb_spec a b); [|destruct I]]; destruct I as [<-|[]].
      + split; [eapply get_lt; exact Ga|]. split; [left; constructor; exact Ga|lia].
      + split; [eapply get_lt; exact Gb|]. split; [right; constructor; exact Gb|lia]. }
  destruct (set_all comp (Nat.min a b) M) as (M' & E & L & G1 & G2); [intros c I; apply (InC c I)|].
  exists M'. split; [exact E|]. split; [exact L|]. split.
  - intros u m Em. destruct (in_dec Nat.eq_dec u comp) as [I|NI].
    + rewrite (G1 u I) in Em. injection Em as <-. destruct (InC u I) as (_ & _ & Q). lia.
    + rewrite (G2 u NI) in Em. apply Low. exact Em.
  - assert (Rm : rooted M' (Nat.min a b) (Nat.min a b)).
    { constructor. rewrite G2; [|intros I; destruct (InC _ I) as (_ & _ & Q); lia].
      destruct (Nat.min_dec a b) as [-> | ->]; assumption. }
    intros u r R. induction R as [u Eu|u m r Eu Lu R IH].
    + destruct (in_dec Nat.eq_dec u comp) as [I|NI].
      * destruct (InC u I) as (_ & Q & Lm). assert (Z : (u =? a) || (u =? b) = true).
        { apply orb_true_iff. rewrite !Nat.eqb_eq. destruct Q as [Q|Q]; [left|right]; eapply rooted_unique; eauto; constructor; exact Eu. }
        rewrite Z. apply (rooted_up M' u (Nat.min a b)); [apply G1; exact I|exact Lm|exact Rm].
      * destruct (Nat.eqb_spec u a) as [->|Na]; [|destruct (Nat.eqb_spec u b) as [->|Nb]]; cbn [orb].
        -- assert (Q : Nat.min a b = a).
           { destruct (Nat.le_gt_cases a b); [lia|]. exfalso. apply NI. unfold comp, mx. destruct (Nat.ltb_spec b a); [|lia]. apply in_or_app. right. left. reflexivity. }
           rewrite Q in *. exact Rm.
        -- assert (Q : Nat.min a b = b).
           { destruct (Nat.le_gt_cases b a); [lia|]. exfalso. apply NI. unfold comp, mx. destruct (Nat.ltb_spec b a); [lia|]. destruct (Nat.ltb_spec a b); [|lia]. apply in_or_app. right. left. reflexivity. }
           rewrite Q in *. exact Rm.
        -- constructor. rewrite (G2 u NI). exact Eu.
    + destruct (in_dec Nat.eq_dec u comp) as [I|NI].
      * destruct (InC u I) as (_ & Q & Lm). assert (Ru : rooted M u r) by (apply (rooted_up M u m r Eu Lu R)).
        assert (Z : (r =? a) || (r =? b) = true).
        { apply orb_true_iff. rewrite !Nat.eqb_eq. destruct Q as [Q|Q]; [left|right]; eapply rooted_unique; eauto. }
        rewrite Z. apply (rooted_up M' u (Nat.min a b)); [apply G1; exact I|exact Lm|exact Rm].
      * apply (rooted_up M' u m); [rewrite (G2 u NI); exact Eu|exact Lu|exact IH].
Qed.

Section Unoriented.
Variable g : graph.
Hypothesis wf : well_formed g.
Hypothesis sorted : forall l, In l g -> StronglySorted le l.
Notation n := (length g).

Lemma both_sym x y : both_ways g x y -> both_ways g y x.
Proof. intros [A B]. split; assumption. Qed.
Lemma linked_sym x y : linked g x y -> linked g y x.
Proof.
  intros R. induction R as [x y E|x|x y z R1 IH1 R2 IH2]; [apply rt_step, both_sym, E|apply rt_refl|eapply rt_trans; eauto].
Qed.

Record forest (P : nat -> nat -> Prop) (M : list nat) : Prop := {
  f_len : length M = n;
  f_low : lower M;
  f_sound : forall u r, rooted M u r -> linked g u r;
  f_complete : forall a b r s, P a b -> both_ways g a b -> rooted M a r -> rooted M b s -> r = s }.

Lemma phase1 : exists M, for_up n 0 (fun i min_rep =>
    do el <- get g i;
    for_each el (fun target min_rep =>
      if target <? i then
        do l <- get g target;
        do b <- binary_search l i;
        if b : bool then join min_rep i target else Some min_rep
      else Some min_rep) min_rep) (seq 0 n) = Some M /\ forest (fun _ _ => True) M.
Proof.
  match goal with |- exists _, for_up n 0 ?body ?st = _ /\ _ =>
    destruct (for_up_rule (fun i M => forest (fun a b => a < i /\ b < a) M) n 0 body st) as (M & E & F) end.
  - assert (Q : forall u r, rooted (seq 0 n) u r -> r = u).
    { intros u r R. destruct R as [u E|u m r E L R]; [reflexivity|]. rewrite get_seq in E. destruct (u <? n); [|discriminate]. injection E as <-. lia. }
    constructor.
    + apply seq_length.
    + intros u m E. rewrite get_seq in E. destruct (u <? n); [|discriminate]. injection E as <-. lia.
    + intros u r R. rewrite (Q u r R). apply rt_refl.
    + intros a b r s H. lia.
  - intros i M Hi F. destruct (get_some g i ltac:(lia)) as [el El]. rewrite El.
    match goal with |- exists _, for_each el ?body ?st = _ /\ _ =>
      destruct (for_each_rule (fun pre M => forest (fun a b => (a < i /\ b < a) \/ (a = i /\ b < a /\ In b pre)) M) el body st) as (M' & E' & F') end.
    + destruct F as [F1 F2 F3 F4]. constructor; auto. intros a b r s [H|(_ & _ & [])]. apply F4. exact H.
    + intros pre t post M' Ee F'. destruct (Nat.ltb_spec t i) as [Lt|Ge].
      * destruct (get_some g t ltac:(lia)) as [lt Elt]. rewrite Elt.
        destruct (binary_search_ok lt i) as (b & Eb & Hb); [apply sorted; eapply get_In; exact Elt|]. rewrite Eb.
        assert (Eit : edge g i t) by (exists el; split; [exact El|rewrite Ee; apply in_or_app; right; left; reflexivity]).
        assert (Bit : b = true <-> both_ways g i t).
        { rewrite Hb. split.
          - intros I. split; [exact Eit|]. exists lt. auto.
          - intros [_ (l' & El' & I)]. assert (l' = lt) as -> by (unfold get in *; congruence). exact I. }
        destruct F' as [F1 F2 F3 F4]. destruct b.
        -- destruct (rooted_exists M' i F2 ltac:(lia)) as [ra Ra]. destruct (rooted_exists M' t F2 ltac:(lia)) as [rb Rb].
           destruct (join_ok M' i t ra rb F2 Ra Rb) as (M2 & E2 & L2 & Low2 & R2). exists M2. split; [exact E2|].
           destruct Bit as [Bit _]. specialize (Bit eq_refl).
           assert (Lk : linked g ra rb).
           { eapply rt_trans; [apply linked_sym, (F3 i ra Ra)|]. eapply rt_trans; [apply rt_step; exact Bit|]. apply (F3 t rb Rb). }
           assert (Inv : forall u r, rooted M2 u r -> exists r0, rooted M' u r0 /\ r = if (r0 =? ra) || (r0 =? rb) then Nat.min ra rb else r0).
           { intros u r R. destruct (rooted_exists M' u F2) as [r0 R0]; [apply rooted_lt in R; lia|]. exists r0. split; [exact R0|].
             eapply rooted_unique; [exact R|]. apply R2. exact R0. }
           constructor.
           ++ congruence.
           ++ exact Low2.
           ++ intros u r R. destruct (Inv u r R) as (r0 & R0 & ->). pose proof (F3 u r0 R0) as Q.
              destruct (Nat.eqb_spec r0 ra) as [Ea|Na]; [rewrite Ea in *|destruct (Nat.eqb_spec r0 rb) as [Eb'|Nb]; [rewrite Eb' in *|]]; cbn [orb]; [| |exact Q].
              ** destruct (Nat.min_dec ra rb) as [-> | ->]; [exact Q|eapply rt_trans; [exact Q|exact Lk]].
              ** destruct (Nat.min_dec ra rb) as [-> | ->]; [eapply rt_trans; [exact Q|apply linked_sym; exact Lk]|exact Q].
           ++ intros a b r s H Bab Raa Rbb. destruct (Inv a r Raa) as (r0 & R0 & ->). destruct (Inv b s Rbb) as (s0 & S0 & ->).
              assert (Old : r0 = s0 -> (if (r0 =? ra) || (r0 =? rb) then Nat.min ra rb else r0) = (if (s0 =? ra) || (s0 =? rb) then Nat.min ra rb else s0)) by (intros ->; reflexivity).
              destruct H as [H|(-> & Hb' & I)]; [apply Old; apply (F4 a b); auto|].
              apply in_app_or in I as [I|[<-|[]]]; [apply Old; apply (F4 i b); auto|].
              rewrite (rooted_unique _ _ _ _ R0 Ra), (rooted_unique _ _ _ _ S0 Rb), !Nat.eqb_refl, orb_true_r. reflexivity.
        -- exists M'. split; [reflexivity|]. constructor; auto. intros a b r s H Bab. destruct H as [H|(-> & Hb' & I)]; [apply (F4 a b); auto|].
           apply in_app_or in I as [I|[<-|[]]]; [apply (F4 i b); auto|]. apply Bit in Bab. discriminate.
      * exists M'. split; [reflexivity|]. destruct F' as [F1 F2 F3 F4]. constructor; auto.
        intros a b r s H Bab. destruct H as [H|(-> & Hb' & I)]; [apply (F4 a b); auto|].
        apply in_app_or in I as [I|[<-|[]]]; [apply (F4 i b); auto|lia].
    + exists M'. split; [exact E'|]. destruct F' as [F1 F2 F3 F4]. constructor; auto. intros a b r s [H1 H2] Bab. apply (F4 a b); [|exact Bab].
      destruct (Nat.eq_dec a i) as [->|N]; [right|left; lia]. split; [reflexivity|]. split; [exact H2|].
      destruct Bab as [(l' & El' & I) _]. assert (l' = el) as -> by (unfold get in *; congruence). exact I.
  - exists M. split; [exact E|]. cbn [Nat.add] in F. destruct F as [F1 F2 F3 F4]. constructor; auto. intros a b r s _ Bab Ra Rb.
    destruct (edge_lt g wf a b) as [La Lb]; [apply Bab|]. destruct (Nat.lt_trichotomy a b) as [H|[->|H]].
    + symmetry. apply (F4 b a); auto. apply both_sym. exact Bab.
    + eapply rooted_unique; eauto.
    + apply (F4 a b); auto.
Qed.

Lemma forest_linked M u w r s : forest (fun _ _ => True) M -> rooted M u r -> rooted M w s -> (r = s <-> linked g u w).
Proof.
  intros [F1 F2 F3 F4] Ru Rw. split.
  - intros <-. eapply rt_trans; [apply (F3 u r Ru)|apply linked_sym, (F3 w r Rw)].
  - intros L. revert r s Ru Rw. induction L as [u w E|u|u z w R1 IH1 R2 IH2]; intros r s Ru Rw.
    + apply (F4 u w); auto.
    + eapply rooted_unique; eauto.
    + assert (Lz : z < length M).
      { rewrite F1. apply rooted_lt in Ru. rewrite F1 in Ru. clear -R1 Ru wf. induction R1 as [u z E|u|u z y A IHA B IHB]; [|exact Ru|auto]. apply (edge_lt g wf u z). apply E. }
      destruct (rooted_exists M z F2 Lz) as [q Rq]. rewrite (IH1 r q Ru Rq). apply IH2; auto.
Qed.

Lemma phase2 M : forest (fun _ _ => True) M -> exists p M', for_up n 0 (fun i '(p, min_rep) =>
    do m <- get min_rep i;
    if m =? i then do (p, _) <- new_class p i; Some (p, min_rep)
    else
      do mm <- get min_rep m;
      do min_rep <- put min_rep i mm;
      do c <- class_of p mm;
      do p <- addToClass p c i;
      Some (p, min_rep)) (empty_partition n, M) = Some (p, M') /\ classifies n (linked g) (d_class p) (d_classRep p).
Proof.
  intros F. pose proof (f_len _ _ F) as LM. pose proof (f_low _ _ F) as Low.
  match goal with |- exists _ _, for_up n 0 ?body ?st = _ /\ _ =>
    destruct (for_up_rule (fun i '(p, M') => length (d_class p) = n /\ length M' = n /\
       (forall u r, rooted M u r -> u < i -> get M' u = Some r) /\ (forall u, i <= u -> get M' u = get M u) /\
       (forall u r, rooted M u r -> u < i -> exists k, get (d_class p) u = Some k /\ get (d_classRep p) k = Some r) /\
       (forall k r, get (d_classRep p) k = Some r -> r < i /\ rooted M r r /\ get (d_class p) r = Some k) /\
       (forall k l r s, k < l -> get (d_classRep p) k = Some r -> get (d_classRep p) l = Some s -> r < s)) n 0 body st)
      as ([p M'] & E & A1 & A2 & A3 & A4 & A5 & A6 & A7) end.
  - split; [apply repeat_length|]. split; [exact LM|]. split; [intros; lia|]. split; [reflexivity|]. split; [intros; lia|].
    split; intros k; intros; destruct k; discriminate.
  - intros i [p M'] Hi (A1 & A2 & A3 & A4 & A5 & A6 & A7). rewrite (A4 i (le_n _)). destruct (get_some M i ltac:(lia)) as [m Em]. rewrite Em.
    destruct (Nat.eqb_spec m i) as [->|N].
    + destruct (new_class_ok p i ltac:(lia)) as (p' & Ep & Rp & Lp & Gp). rewrite Ep. exists (p', M'). split; [reflexivity|]. rewrite Rp, Lp.
      assert (Ri : rooted M i i) by (constructor; exact Em). set (k0 := length (d_classRep p)) in *.
      assert (Gl : get (d_classRep p ++ [i]) k0 = Some i) by (rewrite get_app; fold k0; rewrite Nat.ltb_irrefl, Nat.sub_diag; reflexivity).
      assert (Gk : forall k r, get (d_classRep p) k = Some r -> get (d_classRep p ++ [i]) k = Some r).
      { intros k r G. rewrite get_app. apply get_lt in G as L. destruct (Nat.ltb_spec k (length (d_classRep p))); [exact G|lia]. }
      assert (Gi : forall k r, get (d_classRep p ++ [i]) k = Some r -> get (d_classRep p) k = Some r \/ k = k0 /\ r = i).
      { intros k r G. rewrite get_app in G. fold k0 in G. destruct (Nat.ltb_spec k k0) as [|L]; [left; exact G|]. right.
        destruct (k - k0) as [|j] eqn:Ek; [|destruct j; discriminate]. cbn in G. split; [lia|congruence]. }
      split; [exact A1|]. split; [exact A2|]. split; [|split; [|split; [|split]]].
      * intros u r R Hu. destruct (Nat.eq_dec u i) as [->|]; [|apply A3; [exact R|lia]]. rewrite (A4 i (le_n _)), Em. rewrite (rooted_unique M i r i R Ri). reflexivity.
      * intros u Hu. apply A4. lia.
      * intros u r R Hu. rewrite Gp. destruct (Nat.eqb_spec u i) as [->|].
        -- exists k0. rewrite (rooted_unique M i r i R Ri). auto.
        -- destruct (A5 u r R ltac:(lia)) as (k & B1 & B2). exists k. auto.
      * intros k r G. rewrite Gp. destruct (Gi k r G) as [G'|[-> ->]].
        -- destruct (A6 k r G') as (B1 & B2 & B3). destruct (Nat.eqb_spec r i); [lia|]. split; [lia|auto].
        -- rewrite Nat.eqb_refl. split; [lia|auto].
      * intros k l r s Hkl G1 G2. destruct (Gi k r G1) as [G1'|[-> ->]], (Gi l s G2) as [G2'|[-> ->]].
        -- eapply A7; eauto.
        -- apply (A6 k r G1').
        -- apply get_lt in G2'. unfold k0 in Hkl. lia.
        -- lia.
    + pose proof (Low i m Em) as Lm. destruct (rooted_exists M m Low ltac:(lia)) as [r Rr].
      assert (Ri : rooted M i r) by (apply (rooted_up M i m r Em); [lia|exact Rr]).
      rewrite (A3 m r Rr ltac:(lia)). destruct (put_spec M' i r ltac:(lia)) as (M2 & E2 & L2 & G2). rewrite E2.
      pose proof (rooted_root M m r Rr) as [Gr Lr].
      assert (Rrr : rooted M r r) by (constructor; exact Gr).
      destruct (A5 r r Rrr ltac:(lia)) as (c & Ec & Erc). unfold class_of. rewrite Ec.
      destruct (addToClass_ok p c i ltac:(lia)) as (p' & Ep & Rp & Lp & Gp). rewrite Ep. exists (p', M2). split; [reflexivity|]. rewrite Rp, Lp.
      split; [exact A1|]. split; [lia|]. split; [|split; [|split; [|split; [|exact A7]]]].
      * intros u q R Hu. rewrite G2. destruct (Nat.eqb_spec u i) as [->|]; [|apply A3; [exact R|lia]]. rewrite (rooted_unique M i q r R Ri). reflexivity.
      * intros u Hu. rewrite G2. destruct (Nat.eqb_spec u i); [lia|]. apply A4. lia.
      * intros u q R Hu. rewrite Gp. destruct (Nat.eqb_spec u i) as [->|].
        -- exists c. rewrite (rooted_unique M i q r R Ri). auto.
        -- apply A5; [exact R|lia].
      * intros k q G. destruct (A6 k q G) as (B1 & B2 & B3). rewrite Gp. destruct (Nat.eqb_spec q i); [lia|]. split; [lia|auto].
  - exists p, M'. split; [exact E|]. cbn [Nat.add] in A3, A5, A6.
    assert (Ex : forall x c, nth_error (d_class p) x = Some c -> exists r, rooted M x r /\ get (d_classRep p) c = Some r).
    { intros x c G. assert (Lx : x < n) by (rewrite <- A1; eapply get_lt; exact G). destruct (rooted_exists M x Low ltac:(lia)) as [r R].
      destruct (A5 x r R Lx) as (k & B1 & B2). exists r. split; [exact R|]. unfold get in *. congruence. }
    split; [exact A1|]. split; [|split; [|split]].
    + intros x y c d Gx Gy. destruct (Ex x c Gx) as (r & Rx & Rc), (Ex y d Gy) as (s & Ry & Rd). rewrite <- (forest_linked M x y r s F Rx Ry). split.
      * intros ->. congruence.
      * intros ->. destruct (A6 c s Rc) as (_ & _ & Q1), (A6 d s Rd) as (_ & _ & Q2). congruence.
    + intros x c G. destruct (Ex x c G) as (r & Rx & Rc). exists r. split; [exact Rc|]. apply (rooted_root M x r Rx).
    + intros c r G. apply (A6 c r G).
    + exact A7.
Qed.

Lemma phase3 p : length (d_class p) = n -> (forall x c, get (d_class p) x = Some c -> c < classCount p) ->
  exists h, for_up n 0 (fun i new_links =>
    do ci <- class_of p i;
    do el <- get g i;
    for_each el (fun target new_links =>
      do ct <- class_of p target;
      if negb (ci =? ct) then do s <- get new_links ci; put new_links ci (set_insert ct s) else Some new_links) new_links)
    (repeat [] (classCount p)) = Some h /\ length h = classCount p /\ induced g (d_class p) h.
Proof.
  intros Lp Cp.
  set (Inv := fun (P : nat -> nat -> Prop) (h : graph) => length h = classCount p /\ (forall l, In l h -> increasing l) /\
    forall c d, edge h c d <-> c <> d /\ exists x y, P x y /\ edge g x y /\ get (d_class p) x = Some c /\ get (d_class p) y = Some d).
  match goal with |- exists _, for_up n 0 ?body ?st = _ /\ _ =>
    destruct (for_up_rule (fun i h => Inv (fun x y => x < i) h) n 0 body st) as (h & E & A1 & A2 & A3) end.
  - split; [apply repeat_length|]. split.
    + intros l I. apply repeat_spec in I. subst l. constructor.
    + intros c d. split; [|intros (_ & x & y & H & _); lia]. intros (l & El & I). fold (get (repeat ([] : list nat) (classCount p)) c) in El.
      rewrite get_repeat in El. destruct (_ <? _); [|discriminate]. injection El as <-. destruct I.
  - intros i h Hi I0. destruct (get_some (d_class p) i ltac:(lia)) as [ci Eci]. unfold class_of. rewrite Eci.
    destruct (get_some g i ltac:(lia)) as [el El]. rewrite El.
    match goal with |- exists _, for_each el ?body ?st = _ /\ _ =>
      destruct (for_each_rule (fun pre h => Inv (fun x y => x < i \/ (x = i /\ In y pre)) h) el body st) as (h' & E' & A1 & A2 & A3) end.
    + destruct I0 as (A1 & A2 & A3). split; [exact A1|]. split; [exact A2|]. intros c d. rewrite A3.
      split; intros (N & x & y & H & Q); (split; [exact N|]); exists x, y; (split; [|exact Q]); [auto|]. destruct H as [H|[_ []]]. exact H.
    + intros pre t post h' Ee (A1 & A2 & A3).
      assert (Eit : edge g i t) by (exists el; split; [exact El|rewrite Ee; apply in_or_app; right; left; reflexivity]).
      destruct (edge_lt g wf i t Eit) as [_ Lt]. destruct (get_some (d_class p) t ltac:(lia)) as [ct Ect]. rewrite Ect.
      destruct (Nat.eqb_spec ci ct) as [Q|N]; cbn [negb].
      * exists h'. split; [reflexivity|]. split; [exact A1|]. split; [exact A2|]. intros c d. rewrite A3.
        split; intros (N & x & y & H & Q'); (split; [exact N|]); exists x, y; (split; [|exact Q']).
        -- destruct H as [H|[-> I]]; [auto|right]. split; [reflexivity|]. apply in_or_app. left. exact I.
        -- destruct H as [H|[-> I]]; [auto|right]. split; [reflexivity|]. apply in_app_or in I as [I|[<-|[]]]; [exact I|].
           exfalso. destruct Q' as (_ & Q1 & Q2). apply N. congruence.
      * pose proof (Cp i ci Eci) as Lci. destruct (get_some h' ci ltac:(lia)) as [s Es]. rewrite Es.
        destruct (put_spec h' ci (set_insert ct s) ltac:(lia)) as (h2 & Ep & L2 & G2). exists h2. split; [exact Ep|].
        destruct (set_insert_spec ct s) as [S1 S2]; [apply A2; eapply get_In; exact Es|].
        split; [congruence|]. split.
        -- intros l I. apply In_get in I as [k Ek]. rewrite G2 in Ek. destruct (Nat.eqb_spec k ci); [injection Ek as <-; exact S1|]. apply A2. eapply get_In. exact Ek.
        -- intros c d. assert (EQ : edge h2 c d <-> edge h' c d \/ (c = ci /\ d = ct)).
           { unfold edge. fold (get h2 c) (get h' c). rewrite G2. destruct (Nat.eqb_spec c ci) as [->|Nc].
             - rewrite Es. split.
               + intros (l & Q & I). injection Q as <-. apply S2 in I as [->|I]; [auto|]. left. exists s. auto.
               + intros [(l & Q & I)|[_ ->]]; [injection Q as <-|]; (eexists; split; [reflexivity|]; apply S2; auto).
             - split; [auto|]. intros [H|[H _]]; [exact H|contradiction]. }
           rewrite EQ, A3. split.
           ++ intros [(Nc & x & y & H & Q')|[-> ->]].
              ** split; [exact Nc|]. exists x, y. split; [|exact Q']. destruct H as [H|[-> I]]; [auto|right]. split; [reflexivity|]. apply in_or_app. left. exact I.
              ** split; [exact N|]. exists i, t. split; [right; split; [reflexivity|]; apply in_or_app; right; left; reflexivity|]. auto.
           ++ intros (Nc & x & y & H & Q'). destruct H as [H|[-> I]].
              ** left. split; [exact Nc|]. exists x, y. auto.
              ** apply in_app_or in I as [I|[<-|[]]].
                 --- left. split; [exact Nc|]. exists i, y. auto.
                 --- right. destruct Q' as (_ & Q1 & Q2). split; congruence.
    + exists h'. split; [exact E'|]. split; [exact A1|]. split; [exact A2|]. intros c d. rewrite A3.
      split; intros (N & x & y & H & Q); (split; [exact N|]); exists x, y; (split; [|exact Q]).
      * destruct H as [H|[-> _]]; lia.
      * destruct (Nat.eq_dec x i) as [->|]; [right|left; lia]. split; [reflexivity|]. destruct Q as ((l & El' & I) & _).
        assert (l = el) as -> by (unfold get in *; congruence). exact I.
  - exists h. split; [exact E|]. split; [exact A1|]. split; [|exact A2]. intros c d. rewrite A3.
    split; intros (N & x & y & Q); (split; [exact N|]); exists x, y; [apply Q|]. split; [|exact Q]. destruct Q as (Ed & _).
    apply (edge_lt g wf) in Ed. lia.
Qed.

Lemma to_unoriented_components_ok : exists p h, to_unoriented_components g = Some (p, h) /\
  classifies n (linked g) (d_class p) (d_classRep p) /\ length h = length (d_classRep p) /\ induced g (d_class p) h.
Proof.
  unfold to_unoriented_components. destruct phase1 as (M & -> & F). destruct (phase2 M F) as (p & M' & -> & C).
  destruct (phase3 p) as (h & -> & L & I).
  - apply C.
  - intros x c G. destruct C as (_ & _ & C & _). destruct (C x c G) as (r & E & _). apply get_lt in E. exact E.
  - exists p, h. auto.
Qed.
End Unoriented.
