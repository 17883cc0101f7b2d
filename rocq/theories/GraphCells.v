(** Proof that the depth-first search of |cells| finds the strong components. *)

From Coq Require Import List Arith Bool Lia Relations Sorted.
From Verif Require Import VecModel VecProofs PermProofs PartModel PartOrbits GraphModel GraphSpec.
Import ListNotations.
Open Scope nat_scope.
Open Scope vec_scope.

(** ** Sets and sums *)

Lemma set_insert_spec x s : increasing s -> increasing (set_insert x s) /\ forall z, In z (set_insert x s) <-> z = x \/ In z s.
Proof.
  unfold increasing. induction s as [|y t IH]; intros S; cbn [set_insert].
  - split; [repeat constructor|]. intros z. cbn. intuition congruence.
  - inversion_clear S as [|? ? S' F]. destruct (Nat.ltb_spec x y) as [H|H].
    + split.
      * constructor; [constructor; auto|]. constructor; [exact H|]. rewrite Forall_forall in *. intros z I. specialize (F z I). lia.
      * intros z. cbn. intuition congruence.
    + destruct (Nat.eqb_spec x y) as [->|N].
      * split; [constructor; auto|]. intros z. cbn. intuition congruence.
      * destruct (IH S') as [I1 I2]. split.
        -- constructor; [exact I1|]. apply Forall_forall. intros z I. apply I2 in I as [->|I]; [lia|]. rewrite Forall_forall in F. auto.
        -- intros z. cbn. rewrite I2. intuition congruence.
Qed.
Lemma set_erase_spec x s : increasing s -> increasing (set_erase x s) /\ forall z, In z (set_erase x s) <-> z <> x /\ In z s.
Proof.
  unfold increasing, set_erase. intros S. split.
  - induction S as [|y t S IH F]; cbn [filter]; [constructor|]. destruct (negb (y =? x)); [|exact IH]. constructor; [exact IH|].
    rewrite Forall_forall in *. intros z I. apply filter_In in I as [I _]. auto.
  - intros z. rewrite filter_In, negb_true_iff, Nat.eqb_neq. tauto.
Qed.
Lemma increasing_nil : increasing [].
Proof. constructor. Qed.

Lemma sum_change (l : list nat) (f h : nat -> nat) y : NoDup l -> In y l -> (forall z, In z l -> z <> y -> f z = h z) -> h y = 0 ->
  list_sum (map f l) = list_sum (map h l) + f y.
Proof.
  intros ND I E Z. induction ND as [|z l NI ND IH]; [destruct I|]. cbn [map list_sum fold_right] in *. destruct I as [->|I].
  - assert (Q : map f l = map h l). { apply map_ext_in. intros u Iu. apply E; [right; exact Iu|]. intros ->. contradiction. }
    unfold list_sum in *. cbn. rewrite Q, Z. lia.
  - assert (z <> y) by (intros ->; contradiction). unfold list_sum in *. cbn. rewrite (E z (or_introl eq_refl) H).
    rewrite IH; [lia|exact I|]. intros u Iu. apply E. right. exact Iu.
Qed.
Definition nz (R : list nat) : nat := length (filter (fun r => negb (r =? 0)) R).
Lemma nz_put R y r R' : get R y = Some 0 -> put R y r = Some R' -> r <> 0 -> nz R' = S (nz R).
Proof.
  revert y R'. induction R as [|h t IH]; intros [|y] R' G P N; try discriminate; cbn in G.
  - injection G as ->. cbn in P. injection P as <-. unfold nz. cbn [filter]. destruct (Nat.eqb_spec r 0); [contradiction|reflexivity].
  - cbn [put] in P. destruct (put t y r) as [t'|] eqn:Et; [|discriminate]. injection P as <-. specialize (IH y t' G Et N).
    unfold nz in *. cbn [filter]. destruct (negb (h =? 0)); cbn [length]; lia.
Qed.
Lemma nz_le R : nz R <= length R.
Proof. unfold nz. induction R as [|h t IH]; cbn [filter length]; [lia|]. destruct (negb (h =? 0)); cbn [length]; lia. Qed.
Lemma nz_lt R y : get R y = Some 0 -> nz R < length R.
Proof.
  revert y. induction R as [|h t IH]; intros [|y] G; try discriminate; cbn in G.
  - injection G as ->. unfold nz. cbn. pose proof (nz_le t). unfold nz in H. lia.
  - specialize (IH y G). unfold nz in *. cbn [filter]. destruct (negb (h =? 0)); cbn [length]; lia.
Qed.
Lemma nz_ext R R' : length R = length R' -> (forall y, get R y = Some 0 <-> get R' y = Some 0) -> nz R = nz R'.
Proof.
  revert R'. induction R as [|h t IH]; intros [|h' t'] L E; try discriminate; [reflexivity|].
  cbn in L. injection L as L. assert (Q : nz t = nz t') by (apply IH; [exact L|]; intros y; exact (E (S y))).
  unfold nz in *. cbn [filter]. specialize (E 0). cbn in E.
  destruct (Nat.eqb_spec h 0) as [->|], (Nat.eqb_spec h' 0) as [->|]; cbn [negb length]; try lia;
    [destruct E as [E _]; specialize (E eq_refl); congruence|destruct E as [_ E]; specialize (E eq_refl); congruence].
Qed.

Section Cells.
Variable g : graph.
Hypothesis wf : well_formed g.
Notation n := (length g).

Lemma edge_lt x y : edge g x y -> x < n /\ y < n.
Proof. intros (l & E & I). split; [eapply get_lt; exact E|]. eapply wf; [eapply nth_error_In; exact E|exact I]. Qed.
Lemma reach_step x y z : reach g x y -> edge g y z -> reach g x z.
Proof. intros A B. eapply rt_trans; [exact A|apply rt_step; exact B]. Qed.

(** ** The part that is settled *)

Record solved (S : nat -> Prop) (p : partition) (h : graph) : Prop := {
  s_len : length (d_class p) = n;
  s_gr : length h = length (d_classRep p);
  s_class : forall y, S y -> exists c, get (d_class p) y = Some c /\ c < length (d_classRep p);
  s_closed : forall y z, S y -> edge g y z -> S z;
  s_down : forall y z c d, S y -> edge g y z -> get (d_class p) y = Some c -> get (d_class p) z = Some d -> d <= c;
  s_strong : forall y z c d, S y -> S z -> get (d_class p) y = Some c -> get (d_class p) z = Some d -> (c = d <-> strong g y z);
  s_rep : forall c r, get (d_classRep p) c = Some r -> S r /\ get (d_class p) r = Some c;
  s_edge : forall c d, edge h c d <-> c <> d /\ exists x y, S x /\ edge g x y /\ get (d_class p) x = Some c /\ get (d_class p) y = Some d;
  s_incr : forall l, In l h -> increasing l }.

Lemma solved_ext S S' p h : (forall y, S y <-> S' y) -> solved S p h -> solved S' p h.
Proof.
  intros E [A1 A2 A3 A4 A5 A6 A7 A8 A9]. constructor; auto.
  - intros y Hy. apply A3, E, Hy.
  - intros y z Hy Q. apply E. apply (A4 y z); [apply E; exact Hy|exact Q].
  - intros y z c d Hy. apply A5. apply E. exact Hy.
  - intros y z c d Hy Hz. apply A6; apply E; assumption.
  - intros c r G. rewrite <- E. apply A7. exact G.
  - intros c d. rewrite A8. split; intros (N & x & y & Hx & Q); (split; [exact N|]); exists x, y; (split; [apply E; exact Hx|exact Q]).
Qed.
Lemma reach_closed (S : nat -> Prop) : (forall y z, S y -> edge g y z -> S z) -> forall y z, reach g y z -> S y -> S z.
Proof. intros C y z R. induction R as [y z E| y | y z u R1 IH1 R2 IH2]; intros H; [eapply C; eauto|exact H|auto]. Qed.

Lemma solved_more S p h C x p' l : solved S p h ->
  (forall y, In y C -> y < n /\ ~ S y) -> In x C -> (forall y z, In y C -> In z C -> strong g y z) ->
  (forall y z, In y C -> edge g y z -> S z \/ In z C) ->
  length (d_class p') = n -> d_classRep p' = d_classRep p ++ [x] ->
  (forall y, In y C -> get (d_class p') y = Some (length (d_classRep p))) ->
  (forall y, ~ In y C -> get (d_class p') y = get (d_class p) y) ->
  increasing l -> (forall d, In d l <-> d <> length h /\ exists y z, In y C /\ edge g y z /\ get (d_class p') z = Some d) ->
  solved (fun y => S y \/ In y C) p' (h ++ [l]).
Proof.
  intros [A1 A2 A3 A4 A5 A6 A7 A8 A9] CS Cx CC CE L' R' K1 K2 Il Ed. set (k := length (d_classRep p)) in *.
  assert (Old : forall y, S y -> get (d_class p') y = get (d_class p) y).
  { intros y Hy. apply K2. intros I. destruct (CS y I) as [_ N]. contradiction. }
  assert (Cl : forall y z, S y \/ In y C -> edge g y z -> S z \/ In z C).
  { intros y z [H|H] E; [left; eapply A4; eauto|eapply CE; eauto]. }
  assert (Rc := reach_closed S A4).
  constructor.
  - exact L'.
  - rewrite R', !app_length, A2. reflexivity.
  - rewrite R', app_length. cbn [length]. intros y [H|H].
    + rewrite (Old y H). destruct (A3 y H) as (c & E & Lc). exists c. split; [exact E|]. fold k. lia.
    + rewrite (K1 y H). exists k. split; [reflexivity|]. fold k. lia.
  - exact Cl.
  - intros y z c d [H|H] E Gy Gz.
    + rewrite (Old y H) in Gy. rewrite (Old z (A4 _ _ H E)) in Gz. eapply A5; eauto.
    + rewrite (K1 y H) in Gy. injection Gy as <-. destruct (CE y z H E) as [Hz|Hz].
      * rewrite (Old z Hz) in Gz. destruct (A3 z Hz) as (c' & E' & Lc'). fold k in Lc'. assert (c' = d) by congruence. lia.
      * rewrite (K1 z Hz) in Gz. injection Gz as <-. lia.
  - assert (Mixed : forall y z c d, S y -> In z C -> get (d_class p') y = Some c -> get (d_class p') z = Some d -> c <> d /\ ~ reach g y z).
    { intros y z c d Hy Hz Gy Gz. rewrite (Old y Hy) in Gy. rewrite (K1 z Hz) in Gz. injection Gz as <-. destruct (A3 y Hy) as (c' & E' & Lc').
      fold k in Lc'. split; [assert (c' = c) by congruence; lia|]. intros R. apply (Rc y z R) in Hy. destruct (CS z Hz) as [_ N]. contradiction. }
    intros y z c d [Hy|Hy] [Hz|Hz] Gy Gz.
    + rewrite (Old y Hy) in Gy. rewrite (Old z Hz) in Gz. eapply A6; eauto.
    + destruct (Mixed y z c d Hy Hz Gy Gz) as [N1 N2]. split; [contradiction|]. intros [R _]. contradiction.
    + destruct (Mixed z y d c Hz Hy Gz Gy) as [N1 N2]. split; [congruence|]. intros [_ R]. contradiction.
    + rewrite (K1 y Hy) in Gy. rewrite (K1 z Hz) in Gz. split; [intros _; apply CC; assumption|congruence].
  - intros c r G. rewrite R', get_app in G. fold k in G. destruct (Nat.ltb_spec c k) as [H|H].
    + destruct (A7 c r G) as [H1 H2]. split; [left; exact H1|]. rewrite (Old r H1). exact H2.
    + destruct (c - k) as [|j] eqn:Ej; [|destruct j; discriminate]. cbn in G. injection G as <-. split; [right; exact Cx|].
      rewrite (K1 x Cx). f_equal. lia.
  - intros c d. unfold edge at 1. setoid_rewrite get_app. rewrite A2. fold k. destruct (Nat.ltb_spec c k) as [H|H].
    + change ((exists l0, nth_error h c = Some l0 /\ In d l0) <-> c <> d /\ (exists y z, (S y \/ In y C) /\ edge g y z /\ get (d_class p') y = Some c /\ get (d_class p') z = Some d)).
      fold (edge h c d). rewrite A8. split; intros (N & y & z & Hy & E & Gy & Gz); (split; [exact N|]); exists y, z.
      * split; [left; exact Hy|]. split; [exact E|]. rewrite (Old y Hy), (Old z (A4 _ _ Hy E)). auto.
      * destruct Hy as [Hy|Hy]; [|rewrite (K1 y Hy) in Gy; injection Gy as <-; lia].
        split; [exact Hy|]. split; [exact E|]. rewrite (Old y Hy) in Gy. rewrite (Old z (A4 _ _ Hy E)) in Gz. auto.
    + split.
      * intros (l' & El & I). destruct (c - k) as [|j] eqn:Ej; [|destruct j; discriminate]. cbn in El. injection El as <-.
        apply Ed in I as (N & y & z & Hy & E & Gz). rewrite A2 in N. fold k in N. assert (c = k) as -> by lia. split; [congruence|].
        exists y, z. rewrite (K1 y Hy). auto.
      * intros (N & y & z & Hy & E & Gy & Gz). assert (Iy : In y C).
        { destruct Hy as [Hy|Hy]; [|exact Hy]. rewrite (Old y Hy) in Gy. destruct (A3 y Hy) as (c' & E' & Lc'). fold k in Lc'. assert (c' = c) by congruence. lia. }
        rewrite (K1 y Iy) in Gy. injection Gy as <-. rewrite Nat.sub_diag. exists l. split; [reflexivity|]. apply Ed. rewrite A2. fold k.
        split; [congruence|]. exists y, z. auto.
  - intros l' I. apply in_app_or in I as [I|[<-|[]]]; [apply A9; exact I|exact Il].
Qed.

Lemma add_links_ok (h : graph) out p : (forall o e, In o out -> In e o -> e < length (d_class p)) ->
  exists l, add_links h out p = Some (h ++ [l]) /\ increasing l /\
    forall d, In d l <-> d <> length h /\ exists o e, In o out /\ In e o /\ get (d_class p) e = Some d.
Proof.
  intros H. unfold add_links.
  match goal with |- exists _, match for_each out ?body ?st with _ => _ end = _ /\ _ =>
    destruct (for_each_rule (fun pre seen => increasing seen /\ forall d, In d seen <-> exists o e, In o pre /\ In e o /\ get (d_class p) e = Some d) out body st)
      as (seen & E & A1 & A2) end.
  - split; [constructor|]. intros d. split; [intros []|]. intros (o & e & [] & _).
  - intros pre o post seen Eo (A1 & A2).
    match goal with |- exists _, for_each o ?body ?st = _ /\ _ =>
      destruct (for_each_rule (fun pre' seen' => increasing seen' /\ forall d, In d seen' <-> In d seen \/ exists e, In e pre' /\ get (d_class p) e = Some d) o body st)
        as (seen' & E & B1 & B2) end.
    + split; [exact A1|]. intros d. split; [auto|]. intros [I|(e & [] & _)]. exact I.
    + intros pre' e post' s Ee (B1 & B2). assert (Le : e < length (d_class p)).
      { apply (H o e); [rewrite Eo; apply in_or_app; right; left; reflexivity|rewrite Ee; apply in_or_app; right; left; reflexivity]. }
      destruct (get_some (d_class p) e Le) as [k Ek]. unfold class_of. rewrite Ek. eexists. split; [reflexivity|].
      destruct (set_insert_spec k s B1) as [C1 C2]. split; [exact C1|]. intros d. rewrite C2, B2. split.
      * intros [->|[I|(e' & I & G)]]; [right; exists e; split; [apply in_or_app; right; left; reflexivity|exact Ek]|auto|].
        right. exists e'. split; [apply in_or_app; left; exact I|exact G].
      * intros [I|(e' & I & G)]; [auto|]. apply in_app_or in I as [I|[<-|[]]]; [right; right; exists e'; auto|left; congruence].
    + exists seen'. split; [exact E|]. split; [exact B1|]. intros d. rewrite B2, A2. split.
      * intros [(o' & e & I1 & I2 & G)|(e & I & G)]; [exists o', e; split; [apply in_or_app; left; exact I1|auto]|].
        exists o, e. split; [apply in_or_app; right; left; reflexivity|auto].
      * intros (o' & e & I1 & I2 & G). apply in_app_or in I1 as [I1|[<-|[]]]; [left; exists o', e; auto|right; exists e; auto].
  - rewrite E. destruct (set_erase_spec (length h) seen A1) as [B1 B2]. exists (set_erase (length h) seen). split; [reflexivity|].
    split; [exact B1|]. intros d. rewrite B2, A2. reflexivity.
Qed.

Definition settle_body (c inf : nat) (it : info) (s : partition * list nat * list (list nat)) : option (partition * list nat * list (list nat)) :=
  let '(p, rk, out) := s in
  let y := v it in
  do p <- addToClass p c y; do rk <- put rk y inf; do l <- get g y; Some (p, rk, out ++ [l]).
Lemma settle_loop c inf T p R : length (d_class p) = n -> length R = n -> (forall it, In it T -> v it < n) ->
  exists p' R', for_each T (settle_body c inf) (p, R, []) = Some (p', R', map (fun it => nth (v it) g []) T) /\
    d_classRep p' = d_classRep p /\ length (d_class p') = n /\ length R' = n /\
    (forall y, In y (map v T) -> get (d_class p') y = Some c /\ get R' y = Some inf) /\
    (forall y, ~ In y (map v T) -> get (d_class p') y = get (d_class p) y /\ get R' y = get R y).
Proof.
  intros L1 L2 H.
  destruct (for_each_rule (fun pre '(p', R', out) => out = map (fun it => nth (v it) g []) pre /\
    d_classRep p' = d_classRep p /\ length (d_class p') = n /\ length R' = n /\
    (forall y, In y (map v pre) -> get (d_class p') y = Some c /\ get R' y = Some inf) /\
    (forall y, ~ In y (map v pre) -> get (d_class p') y = get (d_class p) y /\ get R' y = get R y)) T (settle_body c inf) (p, R, []))
    as ([[p' R'] out] & E & A0 & A1 & A2 & A3 & A4 & A5).
  - split; [reflexivity|]. split; [reflexivity|]. split; [exact L1|]. split; [exact L2|]. split; [intros y []|auto].
  - intros pre it post [[p' R'] out] Et (A0 & A1 & A2 & A3 & A4 & A5). cbn [settle_body].
    assert (Lv : v it < n) by (apply H; rewrite Et; apply in_or_app; right; left; reflexivity).
    destruct (addToClass_ok p' c (v it) ltac:(lia)) as (p2 & Ep & Rp & Lp & Gp). rewrite Ep.
    destruct (put_spec R' (v it) inf ltac:(lia)) as (R2 & Er & Lr & Gr). rewrite Er.
    rewrite (get_nth g (v it) []) by exact Lv. eexists. split; [reflexivity|].
    split; [rewrite map_app, A0; reflexivity|]. split; [congruence|]. split; [congruence|]. split; [congruence|]. rewrite map_app. cbn [map].
    split; intros y I; rewrite Gp, Gr.
    + destruct (Nat.eqb_spec y (v it)) as [->|N]; [auto|]. apply A4. apply in_app_or in I as [I|[I|[]]]; [exact I|congruence].
    + destruct (Nat.eqb_spec y (v it)) as [->|N]; [exfalso; apply I; apply in_or_app; right; left; reflexivity|]. apply A5.
      intros Q. apply I. apply in_or_app. left. exact Q.
  - exists p', R'. rewrite E, A0. auto 10.
Qed.

(** ** The traversal *)

Fixpoint chain (A : list info) (path : list nat) : Prop :=
  match path with
  | [] => True
  | p :: t => (exists x, get A p = Some x /\ parent x = hd n t) /\ chain A t
  end.

Record dfs (path : list nat) (R : list nat) (A : list info) (cnt : nat) : Prop := {
  d_lenR : length R = n;
  d_cnt : 1 <= cnt <= S (nz R);
  d_vert : forall i x, get A i = Some x -> v x < n /\ exists rho, get R (v x) = Some rho /\ 0 < rho < cnt /\ rho <= n;
  d_seen : forall y, y < n -> get R y = Some 0 \/ get R y = Some (S n) \/ exists i x, get A i = Some x /\ v x = y;
  d_sorted : forall i j x z rho sig, i < j -> get A i = Some x -> get A j = Some z -> get R (v x) = Some rho -> get R (v z) = Some sig -> rho < sig;
  d_parent0 : forall x, get A 0 = Some x -> parent x = n;
  d_parent : forall i x, get A (S i) = Some x -> parent x < S i /\ exists q, get A (parent x) = Some q /\ edge g (v q) (v x);
  d_min : forall i x, get A i = Some x -> exists j z, j <= i /\ get A j = Some z /\ get R (v z) = Some (min x) /\ reach g (v x) (v z);
  d_chain : chain A path;
  d_empty : path = [] -> A = [];
  d_mature : forall i x, get A i = Some x -> ~ In i path -> 0 < i /\
               (exists l, get g (v x) = Some l /\ next_edge x = length l) /\
               (exists rho, get R (v x) = Some rho /\ min x < rho) /\ exists q, get A (parent x) = Some q /\ min q <= min x;
  d_next : forall i x l, get A i = Some x -> get g (v x) = Some l -> next_edge x <= length l;
  d_edges : forall i x l e y, get A i = Some x -> get g (v x) = Some l -> e < next_edge x -> get l e = Some y ->
               exists rho, get R y = Some rho /\ 0 < rho /\ min x <= rho;
  d_nest : forall p i x, In p path -> p < i -> get A i = Some x -> p <= parent x }.

Lemma chain_get A path p : chain A path -> In p path -> exists x, get A p = Some x.
Proof. induction path as [|q t IH]; intros C I; [destruct I|]. destruct C as [(x & E & _) C]. destruct I as [->|I]; [exists x; exact E|auto]. Qed.

Section Facts.
Variables (path R : list nat) (A : list info) (cnt : nat).
Hypothesis D : dfs path R A cnt.

Lemma dfs_distinct i j x z : get A i = Some x -> get A j = Some z -> v x = v z -> i = j.
Proof.
  intros Ei Ej Ev. destruct (d_vert _ _ _ _ D i x Ei) as (_ & rho & G & _). destruct (Nat.lt_trichotomy i j) as [H|[H|H]]; [|exact H|].
  - pose proof (d_sorted _ _ _ _ D i j x z rho rho H Ei Ej G). rewrite <- Ev in H0. specialize (H0 G). lia.
  - pose proof (d_sorted _ _ _ _ D j i z x rho rho H Ej Ei). rewrite <- Ev in H0. specialize (H0 G G). lia.
Qed.
Lemma dfs_length : length A <= n.
Proof.
  rewrite <- (map_length v). rewrite <- (seq_length n 0). apply NoDup_incl_length.
  - apply NoDup_nth_error. intros i j Hi E. rewrite map_length in Hi. rewrite !nth_error_map in E. destruct (get_some A i Hi) as [x Ex].
    unfold get in Ex. rewrite Ex in E. cbn in E. destruct (nth_error A j) as [z|] eqn:Ez; [|discriminate]. cbn in E. injection E as E.
    exact (dfs_distinct i j x z Ex Ez E).
  - intros y I. apply in_map_iff in I as (x & <- & I). apply In_get in I as [i Ei]. destruct (d_vert _ _ _ _ D i x Ei) as (L & _). apply in_seq. lia.
Qed.
Lemma dfs_path_lt p : In p path -> p < length A.
Proof. intros I. destruct (chain_get A path p (d_chain _ _ _ _ D) I) as [x E]. eapply get_lt. exact E. Qed.
Lemma dfs_parent i x : get A i = Some x -> parent x <> n -> 0 < i /\ parent x < i /\ exists q, get A (parent x) = Some q /\ edge g (v q) (v x).
Proof.
  intros E N. destruct i as [|i]; [rewrite (d_parent0 _ _ _ _ D x E) in N; contradiction|]. split; [lia|]. apply (d_parent _ _ _ _ D). exact E.
Qed.
End Facts.

Lemma chain_desc path R A cnt : dfs path R A cnt -> forall pre p t, path = pre ++ p :: t -> forall q, In q t -> q < p.
Proof.
  intros D. pose proof (dfs_length _ _ _ _ D) as LA.
  assert (C := d_chain _ _ _ _ D). intros pre p t E.
  assert (Ct : chain A (p :: t)). { rewrite E in C. clear E. revert C. induction pre as [|a pre IH]; [auto|]. intros C. apply IH. apply C. }
  clear E pre C. revert p Ct. induction t as [|q t IH]; intros p Ct; [intros q []|].
  destruct Ct as [(x & Ex & Px) Ct]. cbn [hd] in Px. assert (Lq : q < length A). { destruct (chain_get A (q :: t) q Ct (or_introl eq_refl)) as [z Ez]. eapply get_lt. exact Ez. }
  destruct (dfs_parent _ _ _ _ D p x Ex ltac:(lia)) as (_ & L & _). intros u [<-|Iu]; [lia|]. specialize (IH q Ct u Iu). lia.
Qed.

(** change of one entry that is on the path *)
Lemma dfs_upd path R A cnt i x x' A' l : dfs path R A cnt -> In i path -> get A i = Some x -> get g (v x) = Some l ->
  (forall j, get A' j = if j =? i then Some x' else get A j) ->
  v x' = v x -> parent x' = parent x -> next_edge x <= next_edge x' <= length l -> min x' <= min x ->
  (exists j z, j <= i /\ get A j = Some z /\ get R (v z) = Some (min x') /\ reach g (v x) (v z)) ->
  (forall e y, next_edge x <= e < next_edge x' -> get l e = Some y -> exists rho, get R y = Some rho /\ 0 < rho /\ min x' <= rho) ->
  dfs path R A' cnt.
Proof.
  intros D Ii Ex El GA Ev Ep Hn Hm Dm De.
  assert (Back : forall j z', get A' j = Some z' -> exists z, get A j = Some z /\ v z' = v z /\ parent z' = parent z /\ min z' <= min z /\ (j <> i -> z' = z)).
  { intros j z'. rewrite GA. destruct (Nat.eqb_spec j i) as [->|N]; [|intros E; exists z'; auto].
    intros E. injection E as <-. exists x. repeat split; auto. congruence. }
  assert (Forth : forall j z, get A j = Some z -> exists z', get A' j = Some z' /\ v z' = v z /\ parent z' = parent z /\ min z' <= min z).
  { intros j z. rewrite GA. destruct (Nat.eqb_spec j i) as [->|N]; [|intros E; exists z; auto].
    intros E. exists x'. assert (z = x) as -> by congruence. auto. }
  destruct D as [A1 A2 A3 A4 A5 A6 A7 A8 A9 A10 A11 A12 A13 A14]. constructor; auto.
  - intros j z' E. destruct (Back j z' E) as (z & Ez & Vz & _). rewrite Vz. apply (A3 j z Ez).
  - intros y Hy. destruct (A4 y Hy) as [Q|[Q|(j & z & Ez & Vz)]]; auto. right. right. destruct (Forth j z Ez) as (z' & Ez' & Vz' & _). exists j, z'. split; [exact Ez'|congruence].
  - intros a b z u rho sig Hab Ea Eb. destruct (Back a z Ea) as (z0 & Ez & -> & _). destruct (Back b u Eb) as (u0 & Eu & -> & _). apply (A5 a b z0 u0 rho sig Hab Ez Eu).
  - intros z E. destruct (Back 0 z E) as (z0 & Ez & _ & -> & _). apply A6. exact Ez.
  - intros j z E. destruct (Back (S j) z E) as (z0 & Ez & -> & -> & _). destruct (A7 j z0 Ez) as (L & q & Eq & Ed). split; [exact L|].
    destruct (Forth _ q Eq) as (q' & Eq' & Vq' & _). exists q'. rewrite Vq'. auto.
  - intros j z' E. rewrite GA in E. destruct (Nat.eqb_spec j i) as [->|N].
    + injection E as <-. destruct Dm as (k & u & Lk & Eu & Ru & Rr). destruct (Forth k u Eu) as (u' & Eu' & Vu' & _). exists k, u'. rewrite Vu', Ev. auto.
    + destruct (A8 j z' E) as (k & u & Lk & Eu & Ru & Rr). destruct (Forth k u Eu) as (u' & Eu' & Vu' & _). exists k, u'. rewrite Vu'. auto.
  - clear -A9 Forth. induction path as [|p t IH]; [exact I|]. destruct A9 as [(z & Ez & Pz) C]. split; [|auto].
    destruct (Forth p z Ez) as (z' & Ez' & _ & Pz' & _). exists z'. split; [exact Ez'|congruence].
  - intros Z. subst path. destruct Ii.
  - intros j z' E NI. assert (N : j <> i) by (intros ->; contradiction). rewrite GA in E. destruct (Nat.eqb_spec j i) as [->|_]; [contradiction|].
    destruct (A11 j z' E NI) as (B1 & B2 & B3 & q & Eq & Mq). split; [exact B1|]. split; [exact B2|]. split; [exact B3|].
    destruct (Forth _ q Eq) as (q' & Eq' & _ & _ & Mq'). exists q'. split; [exact Eq'|lia].
  - intros j z' l' E. rewrite GA in E. destruct (Nat.eqb_spec j i) as [->|N]; [|apply (A12 j z' l' E)].
    injection E as <-. rewrite Ev. intros G. assert (l' = l) as -> by congruence. lia.
  - intros j z' l' e y E. rewrite GA in E. destruct (Nat.eqb_spec j i) as [->|N]; [|apply (A13 j z' l' e y E)].
    injection E as <-. rewrite Ev. intros G He Ey. assert (l' = l) as -> by congruence.
    destruct (Nat.lt_ge_cases e (next_edge x)) as [L|L].
    + destruct (A13 i x l e y Ex El L Ey) as (rho & B1 & B2 & B3). exists rho. split; [exact B1|]. split; [exact B2|lia].
    + apply (De e y); [lia|exact Ey].
  - intros p j z' Ip Hp E. destruct (Back j z' E) as (z & Ez & _ & -> & _). apply (A14 p j z Ip Hp Ez).
Qed.

(** a new vertex *)
Lemma dfs_push path R A cnt cur t x y R' : dfs path R A cnt -> path = cur :: t -> get A cur = Some x -> edge g (v x) y ->
  get R y = Some 0 -> put R y cnt = Some R' ->
  dfs (length A :: path) R' (A ++ [mk_info y cur 0 cnt]) (S cnt).
Proof.
  intros D Ep Ex Ed Ey Er. pose proof (dfs_path_lt _ _ _ _ D cur ltac:(rewrite Ep; left; reflexivity)) as Lc.
  pose proof (get_lt _ _ _ Ey) as Ly. destruct (put_spec R y cnt Ly) as (R2 & E2 & LR & GR). rewrite Er in E2. injection E2 as <-.
  destruct D as [A1 A2 A3 A4 A5 A6 A7 A8 A9 A10 A11 A12 A13 A14].
  set (w := mk_info y cur 0 cnt).
  assert (Back : forall j z, get (A ++ [w]) j = Some z -> j < length A /\ get A j = Some z \/ j = length A /\ z = w).
  { intros j z E. rewrite get_app in E. destruct (Nat.ltb_spec j (length A)) as [H|H]; [auto|]. right.
    destruct (j - length A) as [|k] eqn:Ek; [|destruct k; discriminate]. cbn in E. split; [lia|congruence]. }
  assert (Forth : forall j z, get A j = Some z -> get (A ++ [w]) j = Some z).
  { intros j z E. rewrite get_app. apply get_lt in E as L. destruct (Nat.ltb_spec j (length A)); [exact E|lia]. }
  assert (Last : get (A ++ [w]) (length A) = Some w).
  { rewrite get_app, Nat.ltb_irrefl, Nat.sub_diag. reflexivity. }
  assert (NotY : forall j z, get A j = Some z -> v z <> y).
  { intros j z E Q. destruct (A3 j z E) as (_ & rho & G & P & _). rewrite Q, Ey in G. injection G as <-. lia. }
  assert (KeepR : forall j z, get A j = Some z -> get R' (v z) = get R (v z)).
  { intros j z E. rewrite GR. destruct (Nat.eqb_spec (v z) y) as [Q|]; [destruct (NotY j z E Q)|reflexivity]. }
  assert (Rw : get R' y = Some cnt) by (rewrite GR, Nat.eqb_refl; reflexivity).
  assert (Cn : cnt <= n). { pose proof (nz_lt R y Ey). lia. }
  constructor.
  - lia.
  - rewrite (nz_put R y cnt R' Ey Er) by lia. lia.
  - intros j z E. destruct (Back j z E) as [[H E']|[-> ->]].
    + rewrite (KeepR j z E'). destruct (A3 j z E') as (B1 & rho & B2 & B3 & B4). split; [exact B1|]. exists rho. split; [exact B2|]. lia.
    + cbn [v w]. split; [lia|]. exists cnt. split; [exact Rw|]. lia.
  - intros u Hu. destruct (Nat.eq_dec u y) as [->|N]; [right; right; exists (length A), w; auto|].
    rewrite GR. destruct (Nat.eqb_spec u y); [contradiction|]. destruct (A4 u Hu) as [Q|[Q|(j & z & Ez & Vz)]]; auto.
    right. right. exists j, z. split; [apply Forth; exact Ez|exact Vz].
  - intros i j a b rho sig Hij Ea Eb. destruct (Back i a Ea) as [[H E']|[-> ->]]; [|destruct (Back j b Eb) as [[H E']|[-> ->]]; lia].
    rewrite (KeepR i a E'). destruct (Back j b Eb) as [[H2 E2]|[-> ->]].
    + rewrite (KeepR j b E2). apply (A5 i j a b rho sig Hij E' E2).
    + cbn [v w]. rewrite Rw. intros G Q. injection Q as <-. destruct (A3 i a E') as (_ & rho' & G' & B & _). assert (rho' = rho) by congruence. lia.
  - intros z E. destruct (Back 0 z E) as [[H E']|[H ->]]; [apply A6; exact E'|lia].
  - intros i z E. destruct (Back (S i) z E) as [[H E']|[H ->]].
    + destruct (A7 i z E') as (B1 & q & B2 & B3). split; [exact B1|]. exists q. split; [apply Forth; exact B2|exact B3].
    + cbn [parent v w]. split; [lia|]. exists x. split; [apply Forth; exact Ex|exact Ed].
  - intros i z E. destruct (Back i z E) as [[H E']|[H ->]].
    + destruct (A8 i z E') as (j & u & B1 & B2 & B3 & B4). exists j, u. split; [exact B1|]. split; [apply Forth; exact B2|]. rewrite (KeepR j u B2). auto.
    + exists i, w. rewrite H. split; [lia|]. split; [exact Last|]. cbn [v min w]. split; [exact Rw|apply rt_refl].
  - split.
    + exists w. split; [exact Last|]. cbn [parent w]. rewrite Ep. reflexivity.
    + clear -A9 Forth. induction path as [|p t IH]; [exact I|]. destruct A9 as [(z & Ez & Pz) C]. split; [|auto]. exists z. auto.
  - discriminate.
  - intros i z E NI. destruct (Back i z E) as [[H E']|[-> ->]]; [|exfalso; apply NI; left; reflexivity].
    destruct (A11 i z E') as (B1 & B2 & B3 & q & B4 & B5); [intros Q; apply NI; right; exact Q|]. rewrite (KeepR i z E').
    split; [exact B1|]. split; [exact B2|]. split; [exact B3|]. exists q. split; [apply Forth; exact B4|exact B5].
  - intros i z l E. destruct (Back i z E) as [[H E']|[-> ->]]; [apply (A12 i z l E')|]. cbn [next_edge w]. lia.
  - intros i z l e u E. destruct (Back i z E) as [[H E']|[-> ->]]; [|cbn [next_edge w]; lia]. intros G He Eu.
    destruct (A13 i z l e u E' G He Eu) as (rho & B1 & B2 & B3). rewrite GR. destruct (Nat.eqb_spec u y) as [->|N].
    + rewrite Ey in B1. injection B1 as <-. lia.
    + exists rho. auto.
  - intros p i z Ip Hp E. destruct (Back i z E) as [[H E']|[-> ->]].
    + destruct Ip as [<-|Ip]; [lia|]. apply (A14 p i z Ip Hp E').
    + cbn [parent w]. destruct Ip as [<-|Ip]; [lia|]. rewrite Ep in Ip. destruct Ip as [<-|Ip]; [lia|].
      assert (C2 : chain A (cur :: t)) by (rewrite <- Ep; exact A9).
      assert (D2 : dfs path R A cnt) by (constructor; assumption).
      pose proof (chain_desc path R A cnt D2 [] cur t Ep p Ip). lia.
Qed.

(** the current vertex matures without being settled *)
Lemma dfs_pop path R A cnt cur t x rho q l : dfs path R A cnt -> path = cur :: t -> get A cur = Some x ->
  get g (v x) = Some l -> next_edge x = length l -> get R (v x) = Some rho -> min x < rho ->
  get A (parent x) = Some q -> min q <= min x -> dfs t R A cnt.
Proof.
  intros D Ep Ex El Hn Hr Hm Eq Mq. pose proof (dfs_length _ _ _ _ D) as LA.
  assert (Pn : parent x <> n) by (apply get_lt in Eq; lia).
  destruct (dfs_parent _ _ _ _ D cur x Ex Pn) as (Pc & Lp & _).
  destruct D as [A1 A2 A3 A4 A5 A6 A7 A8 A9 A10 A11 A12 A13 A14]. rewrite Ep in *. destruct A9 as [(x' & Ex' & Px) A9].
  assert (x' = x) as -> by congruence. constructor; auto.
  - intros ->. cbn [hd] in Px. contradiction.
  - intros i z E NI. destruct (Nat.eq_dec i cur) as [->|N].
    + assert (z = x) as -> by congruence. split; [exact Pc|]. split; [exists l; auto|]. split; [exists rho; auto|]. exists q. auto.
    + apply (A11 i z E). intros [Q|Q]; [congruence|contradiction].
  - intros p i z Ip. apply A14. right. exact Ip.
Qed.

(** the current vertex heads a strong component *)
Lemma dfs_component path R A cnt cur t x l : dfs path R A cnt -> path = cur :: t -> get A cur = Some x ->
  get g (v x) = Some l -> next_edge x = length l -> get R (v x) = Some (min x) ->
  (forall j z, cur <= j -> get A j = Some z -> strong g (v x) (v z)) /\
  (forall j z y, cur <= j -> get A j = Some z -> edge g (v z) y -> get R y = Some (S n) \/ exists k u, cur <= k /\ get A k = Some u /\ v u = y).
Proof.
  intros D Ep Ex El Hn Hr.
  assert (Off : forall j, cur < j -> ~ In j path).
  { intros j Hj I. rewrite Ep in I. destruct I as [->|I]; [lia|]. pose proof (chain_desc path R A cnt D [] cur t Ep j I). lia. }
  assert (Icur : In cur path) by (rewrite Ep; left; reflexivity).
  assert (MinLe : forall j z, cur <= j -> get A j = Some z -> min x <= min z /\ reach g (v x) (v z)).
  { intros j. induction (lt_wf j) as [j _ IH]. intros z Hj Ez. destruct (Nat.eq_dec j cur) as [->|N].
    - assert (z = x) as -> by congruence. split; [lia|apply rt_refl].
    - destruct (d_mature _ _ _ _ D j z Ez (Off j ltac:(lia))) as (_ & _ & _ & q & Eq & Mq).
      pose proof (d_nest _ _ _ _ D cur j z Icur ltac:(lia) Ez) as Np. destruct j as [|j]; [lia|].
      destruct (d_parent _ _ _ _ D j z Ez) as (Lp & q' & Eq' & Ed). assert (q' = q) as -> by congruence.
      destruct (IH (parent z) Lp q Np Eq) as [B1 B2]. split; [lia|]. eapply reach_step; eauto. }
  assert (Pos : forall k u rho, get A k = Some u -> get R (v u) = Some rho -> min x <= rho -> cur <= k).
  { intros k u rho Eu Ru Hm. destruct (Nat.le_gt_cases cur k) as [|H]; [assumption|].
    pose proof (d_sorted _ _ _ _ D k cur u x rho (min x) H Eu Ex Ru Hr). lia. }
  split.
  - intros j z Hj Ez. split; [apply (MinLe j z Hj Ez)|]. revert z Hj Ez. induction (lt_wf j) as [j _ IH]. intros z Hj Ez.
    destruct (Nat.eq_dec j cur) as [->|N]; [assert (z = x) as -> by congruence; apply rt_refl|].
    destruct (d_mature _ _ _ _ D j z Ez (Off j ltac:(lia))) as (_ & _ & (rho & Rz & Mz) & _).
    destruct (d_min _ _ _ _ D j z Ez) as (k & u & Lk & Eu & Ru & Rr).
    assert (Nk : k <> j). { intros ->. assert (u = z) as -> by congruence. rewrite Rz in Ru. injection Ru as ->. lia. }
    destruct (MinLe j z Hj Ez) as [Mx _]. pose proof (Pos k u _ Eu Ru Mx) as Hk.
    eapply rt_trans; [exact Rr|]. apply (IH k ltac:(lia) u Hk Eu).
  - intros j z y Hj Ez (lz & Elz & Iy). destruct (edge_lt (v z) y (ex_intro _ lz (conj Elz Iy))) as [_ Ly].
    apply In_get in Iy as [e Ee].
    assert (Hz : next_edge z = length lz).
    { destruct (Nat.eq_dec j cur) as [->|N].
      - assert (z = x) as -> by congruence. unfold get in *. congruence.
      - destruct (d_mature _ _ _ _ D j z Ez (Off j ltac:(lia))) as (_ & (l' & El' & Hl') & _). unfold get in *. congruence. }
    destruct (d_edges _ _ _ _ D j z lz e y Ez Elz) as (rho & B1 & B2 & B3); [apply get_lt in Ee; lia|exact Ee|].
    destruct (d_seen _ _ _ _ D y Ly) as [Q|[Q|(k & u & Eu & Vu)]].
    + rewrite B1 in Q. injection Q as ->. lia.
    + left. exact Q.
    + right. exists k, u. split; [|auto]. apply (Pos k u rho Eu); [rewrite Vu; exact B1|]. destruct (MinLe j z Hj Ez). lia.
Qed.

Lemma get_firstn {T} (l : list T) k i : get (firstn k l) i = if i <? k then get l i else None.
Proof.
  revert l i. induction k as [|k IH]; intros l i; [destruct i; reflexivity|]. destruct l as [|h l]; [destruct i; cbn [firstn get nth_error]; match goal with |- context [if ?b then _ else _] => destruct b end; reflexivity|].
  destruct i as [|i]; [reflexivity|]. exact (IH l i).
Qed.
Lemma get_skipn {T} (l : list T) k i : get (skipn k l) i = get l (k + i).
Proof. revert l. induction k as [|k IH]; intros l; [reflexivity|]. destruct l as [|h l]; [destruct i; reflexivity|]. exact (IH l). Qed.

Lemma dfs_settle path R A cnt cur t R' : dfs path R A cnt -> path = cur :: t -> length R' = n ->
  (forall y, In y (map v (skipn cur A)) -> get R' y = Some (S n)) -> (forall y, ~ In y (map v (skipn cur A)) -> get R' y = get R y) ->
  (forall x, get A cur = Some x -> get R (v x) = Some (min x)) ->
  dfs t R' (firstn cur A) cnt.
Proof.
  intros D Ep LR K1 K2 Hr. pose proof (dfs_length _ _ _ _ D) as LA.
  assert (Lc : cur < length A) by (apply (dfs_path_lt _ _ _ _ D); rewrite Ep; left; reflexivity).
  assert (InC : forall y, In y (map v (skipn cur A)) <-> exists j z, cur <= j /\ get A j = Some z /\ v z = y).
  { intros y. rewrite in_map_iff. split.
    - intros (z & <- & I). apply In_get in I as [j Ej]. rewrite get_skipn in Ej. exists (cur + j), z. split; [lia|auto].
    - intros (j & z & Hj & Ez & <-). exists z. split; [reflexivity|]. apply (get_In _ (j - cur)). rewrite get_skipn. replace (cur + (j - cur)) with j by lia. exact Ez. }
  assert (Keep : forall j z, j < cur -> get A j = Some z -> get R' (v z) = get R (v z)).
  { intros j z Hj Ez. apply K2. intros I. apply InC in I as (k & u & Hk & Eu & Vu). pose proof (dfs_distinct _ _ _ _ D k j u z Eu Ez Vu). lia. }
  assert (Back : forall j z, get (firstn cur A) j = Some z -> j < cur /\ get A j = Some z).
  { intros j z E. rewrite get_firstn in E. destruct (Nat.ltb_spec j cur); [auto|discriminate]. }
  assert (Forth : forall j, j < cur -> get (firstn cur A) j = get A j).
  { intros j H. rewrite get_firstn. destruct (Nat.ltb_spec j cur); [reflexivity|lia]. }
  assert (Desc : forall p, In p t -> p < cur) by (intros p I; exact (chain_desc path R A cnt D [] cur t Ep p I)).
  assert (NZ : forall y, get R' y = Some 0 <-> get R y = Some 0).
  { intros y. destruct (in_dec Nat.eq_dec y (map v (skipn cur A))) as [I|NI]; [|rewrite (K2 y NI); reflexivity].
    rewrite (K1 y I). apply InC in I as (j & z & _ & Ez & <-). destruct (d_vert _ _ _ _ D j z Ez) as (_ & rho & G & B & _). rewrite G.
    split; intros Q; injection Q; lia. }
  destruct (get_some A cur Lc) as [x Ex].
  assert (MinX := Hr x Ex).
  destruct D as [A1 A2 A3 A4 A5 A6 A7 A8 A9 A10 A11 A12 A13 A14]. rewrite Ep in *. destruct A9 as [(x' & Ex' & Px) A9].
  assert (x' = x) as -> by congruence. constructor.
  - exact LR.
  - rewrite (nz_ext R' R); [lia|congruence|exact NZ].
  - intros i z E. destruct (Back i z E) as [Hi E']. rewrite (Keep i z Hi E'). apply (A3 i z E').
  - intros y Hy. destruct (in_dec Nat.eq_dec y (map v (skipn cur A))) as [I|NI]; [right; left; apply K1; exact I|].
    rewrite (K2 y NI). destruct (A4 y Hy) as [Q|[Q|(j & z & Ez & Vz)]]; auto. right. right. exists j, z.
    destruct (Nat.lt_ge_cases j cur) as [L|L]; [rewrite (Forth j L); auto|]. exfalso. apply NI. apply InC. exists j, z. auto.
  - intros i j a b rho sig Hij Ea Eb. destruct (Back i a Ea) as [Hi Ea'], (Back j b Eb) as [Hj Eb'].
    rewrite (Keep i a Hi Ea'), (Keep j b Hj Eb'). apply (A5 i j a b rho sig Hij Ea' Eb').
  - intros z E. destruct (Back 0 z E) as [_ E']. apply A6. exact E'.
  - intros i z E. destruct (Back (S i) z E) as [Hi E']. destruct (A7 i z E') as (B1 & q & B2 & B3). split; [exact B1|]. exists q.
    rewrite Forth by lia. auto.
  - intros i z E. destruct (Back i z E) as [Hi E']. destruct (A8 i z E') as (j & u & B1 & B2 & B3 & B4). exists j, u.
    split; [exact B1|]. rewrite (Forth j) by lia. rewrite (Keep j u) by (try lia; exact B2). auto.
  - clear -A9 Forth Desc. induction t as [|p t IH]; [exact I|]. destruct A9 as [(z & Ez & Pz) C]. split.
    + exists z. rewrite Forth by (apply Desc; left; reflexivity). auto.
    + apply IH; [exact C|]. intros q Iq. apply Desc. right. exact Iq.
  - intros ->. cbn [hd] in Px. destruct cur as [|c]; [reflexivity|]. destruct (A7 c x Ex) as (L & _). lia.
  - intros i z E NI. destruct (Back i z E) as [Hi E']. destruct (A11 i z E') as (B1 & B2 & B3 & q & B4 & B5).
    { intros [Q|Q]; [lia|contradiction]. }
    rewrite (Keep i z Hi E'). split; [exact B1|]. split; [exact B2|]. split; [exact B3|]. exists q.
    destruct i as [|i]; [lia|]. destruct (A7 i z E') as (L & _). rewrite Forth by lia. auto.
  - intros i z l E. destruct (Back i z E) as [Hi E']. apply (A12 i z l E').
  - intros i z l e y E G He Ey. destruct (Back i z E) as [Hi E']. destruct (A13 i z l e y E' G He Ey) as (rho & B1 & B2 & B3).
    destruct (in_dec Nat.eq_dec y (map v (skipn cur A))) as [I|NI]; [|rewrite (K2 y NI); exists rho; auto].
    exists (S n). split; [apply K1; exact I|]. split; [lia|]. destruct (A8 i z E') as (j & u & _ & Eu & Ru & _).
    destruct (A3 j u Eu) as (_ & r & G' & _ & L). assert (r = min z) by congruence. lia.
  - intros p i z Ip Hp E. destruct (Back i z E) as [Hi E']. apply (A14 p i z); auto. right. exact Ip.
Qed.

(** ** The measure *)

Definition fresh_weight (R : list nat) : nat :=
  list_sum (map (fun y => match get R y with Some 0 => S (length (nth y g [])) | _ => 0 end) (seq 0 n)).
Definition path_weight (A : list info) (path : list nat) : nat :=
  list_sum (map (fun p => match get A p with Some x => S (length (nth (v x) g []) - next_edge x) | None => 0 end) path).
Definition weight (R : list nat) (A : list info) (path : list nat) : nat := fresh_weight R + path_weight A path.

Lemma fresh_put R R' y r : y < n -> get R y = Some 0 -> r <> 0 -> (forall j, get R' j = if j =? y then Some r else get R j) ->
  fresh_weight R = fresh_weight R' + S (length (nth y g [])).
Proof.
  intros Hy Ey Hr GR. unfold fresh_weight. rewrite (sum_change (seq 0 n) _ (fun y => match get R' y with Some 0 => S (length (nth y g [])) | _ => 0 end) y).
  - rewrite Ey. reflexivity.
  - apply seq_NoDup.
  - apply in_seq. lia.
  - intros z _ N. rewrite GR. destruct (Nat.eqb_spec z y); [contradiction|reflexivity].
  - rewrite GR, Nat.eqb_refl. destruct r; [contradiction|reflexivity].
Qed.
Lemma fresh_ext R R' : (forall y, get R y = Some 0 <-> get R' y = Some 0) -> fresh_weight R = fresh_weight R'.
Proof.
  intros E. unfold fresh_weight. apply f_equal. apply map_ext. intros y. specialize (E y). destruct (get R y) as [[|a]|], (get R' y) as [[|b]|]; try reflexivity;
    try (destruct E as [E _]; specialize (E eq_refl); discriminate); destruct E as [_ E]; specialize (E eq_refl); discriminate.
Qed.
Lemma path_ext A A' path : (forall p, In p path -> exists x x', get A p = Some x /\ get A' p = Some x' /\ v x = v x' /\ next_edge x = next_edge x') ->
  path_weight A path = path_weight A' path.
Proof.
  intros E. unfold path_weight. apply f_equal. apply map_ext_in. intros p I. destruct (E p I) as (x & x' & -> & -> & -> & ->). reflexivity.
Qed.
Lemma path_cons A p t x : get A p = Some x -> path_weight A (p :: t) = S (length (nth (v x) g []) - next_edge x) + path_weight A t.
Proof. intros E. unfold path_weight. cbn. rewrite E. reflexivity. Qed.
Lemma fresh_total R : fresh_weight R <= edge_count g + n.
Proof.
  unfold fresh_weight, edge_count.
  apply Nat.le_trans with (list_sum (map (fun y => S (length (nth y g []))) (seq 0 n))).
  - induction (seq 0 n) as [|y t IH]; [apply le_n|]. unfold list_sum in *. cbn [map fold_right]. destruct (get R y) as [[|a]|]; lia.
  - clear. induction g as [|l t IH]; [apply le_n|]. cbn [length seq map nth]. unfold list_sum in *. cbn [fold_right map].
    rewrite <- seq_shift, map_map. cbn [nth]. lia.
Qed.

(** ** One step *)

Definition settled (R : list nat) (y : nat) : Prop := get R y = Some (S n).

Record good (R0 : list nat) (path : list nat) (s : state) : Prop := {
  g_dfs : dfs path (rank s) (active s) (count s);
  g_cur : cur_pos s = hd n path;
  g_sol : solved (settled (rank s)) (pi s) (gr s);
  g_grow : forall y, get (rank s) y = Some 0 -> get R0 y = Some 0 }.

Lemma settled_lt R y : length R = n -> settled R y -> y < n.
Proof. intros L H. apply get_lt in H. lia. Qed.

Lemma cells_step_ok R0 path s : good R0 path s -> path <> [] ->
  exists s' path', cells_step g s = Some s' /\ good R0 path' s' /\
    weight (rank s') (active s') path' < weight (rank s) (active s) path.
Proof.
  intros [D Hc Sol Gr] NE. destruct path as [|cur t]; [contradiction|]. clear NE. cbn [hd] in Hc.
  destruct s as [R A p h cnt cp]. cbn [rank active pi gr count cur_pos] in *. subst cp.
  pose proof (dfs_length _ _ _ _ D) as LA.
  assert (Lc : cur < length A) by (apply (dfs_path_lt _ _ _ _ D); left; reflexivity).
  destruct (get_some A cur Lc) as [x Ex]. destruct (d_vert _ _ _ _ D cur x Ex) as (Lv & rho & Rx & Px & Bx).
  unfold cells_step. cbn [rank active pi gr count cur_pos]. rewrite Ex. destruct (get_some g (v x) Lv) as [l El]. rewrite El.
  assert (Nl : nth (v x) g [] = l) by (unfold get in El; apply nth_error_nth; exact El).
  pose proof (d_next _ _ _ _ D cur x l Ex El) as Hnx.
  assert (Desc : forall q, In q t -> q < cur) by (intros q I; exact (chain_desc _ R A cnt D [] cur t eq_refl q I)).
  destruct (Nat.ltb_spec (next_edge x) (length l)) as [Hn|Hn].
  - destruct (get_some l (next_edge x) Hn) as [y Ey]. rewrite Ey. cbv zeta. cbn [v parent next_edge min].
    set (x1 := mk_info (v x) (parent x) (S (next_edge x)) (min x)).
    destruct (put_spec A cur x1 Lc) as (A1 & Ea & L1 & G1). rewrite Ea.
    assert (Ed : edge g (v x) y) by (exists l; split; [exact El|eapply get_In; exact Ey]).
    destruct (edge_lt _ _ Ed) as [_ Ly]. destruct (get_some R y ltac:(rewrite (d_lenR _ _ _ _ D); lia)) as [ry Ery]. rewrite Ery.
    assert (Lift : forall A' x', get A' cur = Some x' -> v x' = v x -> next_edge x' = S (next_edge x) ->
      (forall j, j <> cur -> get A' j = get A j) -> path_weight A' (cur :: t) < path_weight A (cur :: t)).
    { intros A' x' Ex' Vx' Nx' Keep. rewrite (path_cons A' cur t x' Ex'), (path_cons A cur t x Ex), Vx', Nx', Nl.
      rewrite (path_ext A' A t); [lia|]. intros q Iq. destruct (chain_get A (cur :: t) q (d_chain _ _ _ _ D) (or_intror Iq)) as [z Ez].
      exists z, z. rewrite Keep by (specialize (Desc q Iq); lia). auto. }
    destruct (Nat.eqb_spec ry 0) as [->|Nry].
    + pose proof (d_cnt _ _ _ _ D) as Cn.
      destruct (put_spec R y cnt ltac:(eapply get_lt; exact Ery)) as (R1 & Er & LR1 & GR1). rewrite Er.
      eexists. exists (length A :: cur :: t). split; [reflexivity|]. cbn [rank active pi gr count cur_pos].
      assert (D1 : dfs (length A :: cur :: t) R1 (A ++ [mk_info y cur 0 cnt]) (S cnt)).
      { eapply dfs_push; eauto. }
      assert (GA : forall j, get (A1 ++ [mk_info y cur 0 cnt]) j = if j =? cur then Some x1 else get (A ++ [mk_info y cur 0 cnt]) j).
      { intros j. rewrite !get_app, L1, G1. destruct (Nat.eqb_spec j cur) as [->|]; [destruct (Nat.ltb_spec cur (length A)); [reflexivity|lia]|reflexivity]. }
      assert (GC : get (A ++ [mk_info y cur 0 cnt]) cur = Some x).
      { rewrite get_app. destruct (Nat.ltb_spec cur (length A)); [exact Ex|lia]. }
      assert (Cle : cnt <= n) by (pose proof (nz_lt R y Ery); rewrite (d_lenR _ _ _ _ D) in H; lia).
      split.
      * constructor; cbn [rank active pi gr count cur_pos].
        -- eapply (dfs_upd _ _ _ _ cur x x1 _ l D1); auto.
           ++ right. left. reflexivity.
           ++ cbn [next_edge x1]. lia.
           ++ destruct (d_min _ _ _ _ D1 cur x GC) as (j & z & B1 & B2 & B3 & B4). exists j, z. auto.
           ++ intros e y' He Ey'. cbn [next_edge x1] in He. assert (e = next_edge x) as -> by lia. assert (y' = y) as -> by congruence.
              exists cnt. rewrite GR1, Nat.eqb_refl. split; [reflexivity|]. split; [lia|]. cbn [min x1].
              destruct (d_min _ _ _ _ D cur x Ex) as (j & z & _ & Ez & Rz & _). destruct (d_vert _ _ _ _ D j z Ez) as (_ & r & Gz & B & _).
              assert (r = min x) by congruence. lia.
        -- cbn [hd]. exact L1.
        -- eapply solved_ext; [|exact Sol]. intros z. unfold settled. rewrite GR1. destruct (Nat.eqb_spec z y) as [->|]; [|reflexivity].
           rewrite Ery. split; intros Q; injection Q; lia.
        -- intros z. rewrite GR1. destruct (Nat.eqb_spec z y) as [->|]; [intros Q; injection Q; lia|apply Gr].
      * unfold weight. rewrite (fresh_put R R1 y cnt Ly Ery ltac:(lia) GR1).
        rewrite (path_cons (A1 ++ [mk_info y cur 0 cnt]) (length A) (cur :: t) (mk_info y cur 0 cnt)).
        -- cbn [v next_edge]. pose proof (Lift (A1 ++ [mk_info y cur 0 cnt]) x1) as Q.
           rewrite (path_ext (A1 ++ [mk_info y cur 0 cnt]) A1 (cur :: t)).
           ++ assert (path_weight A1 (cur :: t) < path_weight A (cur :: t)); [|lia]. apply (Lift A1 x1); auto.
              ** rewrite G1, Nat.eqb_refl. reflexivity.
              ** intros j Nj. rewrite G1. destruct (Nat.eqb_spec j cur); [contradiction|reflexivity].
           ++ intros q Iq. assert (Lq : q < length A) by (apply (dfs_path_lt _ _ _ _ D); exact Iq).
              destruct (get_some A1 q ltac:(lia)) as [z Ez]. exists z, z. rewrite get_app. destruct (Nat.ltb_spec q (length A1)); [auto|lia].
        -- rewrite get_app, L1, Nat.ltb_irrefl, Nat.sub_diag. reflexivity.
    + assert (Seen : ry = S n \/ exists k z, get A k = Some z /\ v z = y).
      { destruct (d_seen _ _ _ _ D y Ly) as [Q|[Q|Q]]; [congruence|left; congruence|right; exact Q]. }
      destruct (Nat.ltb_spec ry (min x)) as [Hm|Hm].
      * set (x2 := mk_info (v x) (parent x) (S (next_edge x)) ry).
        destruct (put_spec A1 cur x2 ltac:(lia)) as (A2 & Ea2 & L2 & G2). rewrite Ea2.
        assert (GA2 : forall j, get A2 j = if j =? cur then Some x2 else get A j).
        { intros j. rewrite G2, G1. destruct (j =? cur); reflexivity. }
        eexists. exists (cur :: t). split; [reflexivity|]. cbn [rank active pi gr count cur_pos]. split.
        -- constructor; cbn [rank active pi gr count cur_pos]; auto. eapply (dfs_upd _ _ _ _ cur x x2 _ l D); auto.
           ++ left. reflexivity.
           ++ cbn [next_edge x2]. lia.
           ++ cbn [min x2]. lia.
           ++ destruct (d_min _ _ _ _ D cur x Ex) as (j & u & Lj & Eu & Ru & _). destruct (d_vert _ _ _ _ D j u Eu) as (_ & r & Gu & _ & Bu).
              assert (r = min x) by congruence. destruct Seen as [->|(k & z & Ez & Vz)]; [lia|]. exists k, z. cbn [min x2]. rewrite Vz.
              split; [|split; [exact Ez|split; [exact Ery|apply rt_step; exact Ed]]].
              destruct (Nat.le_gt_cases k cur) as [|Q]; [assumption|]. pose proof (d_sorted _ _ _ _ D j k u z (min x) ry ltac:(lia) Eu Ez Ru) as Q2.
              rewrite Vz in Q2. specialize (Q2 Ery). lia.
           ++ intros e y' He Ey'. cbn [next_edge x2] in He. assert (e = next_edge x) as -> by lia. assert (y' = y) as -> by congruence.
              exists ry. cbn [min x2]. split; [exact Ery|]. lia.
        -- unfold weight. assert (path_weight A2 (cur :: t) < path_weight A (cur :: t)); [|lia]. apply (Lift A2 x2); auto.
           ++ rewrite GA2, Nat.eqb_refl. reflexivity.
           ++ intros j Nj. rewrite GA2. destruct (Nat.eqb_spec j cur); [contradiction|reflexivity].
      * eexists. exists (cur :: t). split; [reflexivity|]. cbn [rank active pi gr count cur_pos]. split.
        -- constructor; cbn [rank active pi gr count cur_pos]; auto. eapply (dfs_upd _ _ _ _ cur x x1 _ l D); auto.
           ++ left. reflexivity.
           ++ cbn [next_edge x1]. lia.
           ++ apply (d_min _ _ _ _ D cur x Ex).
           ++ intros e y' He Ey'. cbn [next_edge x1] in He. assert (e = next_edge x) as -> by lia. assert (y' = y) as -> by congruence.
              exists ry. cbn [min x1]. split; [exact Ery|]. lia.
        -- unfold weight. assert (path_weight A1 (cur :: t) < path_weight A (cur :: t)); [|lia]. apply (Lift A1 x1); auto.
           ++ rewrite G1, Nat.eqb_refl. reflexivity.
           ++ intros j Nj. rewrite G1. destruct (Nat.eqb_spec j cur); [contradiction|reflexivity].
  - assert (Hn' : next_edge x = length l) by lia. rewrite Rx. cbv zeta.
    assert (Cur : parent x = hd n t). { destruct (d_chain _ _ _ _ D) as [(x' & Ex' & P) _]. assert (x' = x) as -> by congruence. exact P. }
    destruct (Nat.eqb_spec (min x) rho) as [Hm|Hm].
    + subst rho. set (C := map v (skipn cur A)).
      assert (Cvert : forall y, In y C <-> exists j z, cur <= j /\ get A j = Some z /\ v z = y).
      { intros y. unfold C. rewrite in_map_iff. split.
        - intros (z & <- & I). apply In_get in I as [j Ej]. rewrite get_skipn in Ej. exists (cur + j), z. split; [lia|auto].
        - intros (j & z & Hj & Ez & <-). exists z. split; [reflexivity|]. apply (get_In _ (j - cur)). rewrite get_skipn. replace (cur + (j - cur)) with j by lia. exact Ez. }
      destruct (dfs_component _ R A cnt cur t x l D eq_refl Ex El Hn' Rx) as [St Out].
      destruct (new_class_ok p (v x)) as (p1 & E1 & R1 & L1 & G1); [rewrite (s_len _ _ _ Sol); exact Lv|]. rewrite E1.
      set (c := length (d_classRep p)) in *.
      destruct (settle_loop c (S n) (skipn cur A) p1 R) as (p2 & R2 & E2 & B1 & B2 & B3 & B4 & B5).
      { rewrite L1. apply (s_len _ _ _ Sol). } { apply (d_lenR _ _ _ _ D). }
      { intros it I. assert (Iv : In (v it) C) by (apply in_map; exact I). apply Cvert in Iv as (j & z & _ & Ez & <-). apply (d_vert _ _ _ _ D j z Ez). }
      fold C in B4, B5.
      match goal with |- exists _ _, match for_each _ ?b _ with _ => _ end = _ /\ _ => change b with (settle_body c (S n)) end.
      rewrite E2.
      assert (Tg : forall o e, In o (map (fun it => nth (v it) g []) (skipn cur A)) -> In e o -> exists y, In y C /\ edge g y e).
      { intros o e I1 I2. apply in_map_iff in I1 as (it & <- & I1). exists (v it). assert (Iv : In (v it) C) by (apply in_map; exact I1). split; [exact Iv|].
        apply Cvert in Iv as (j & z & _ & Ez & Vz). destruct (d_vert _ _ _ _ D j z Ez) as (Lz & _). exists (nth (v it) g []). split; [|exact I2].
        apply (get_nth g (v it) []). lia. }
      destruct (add_links_ok h (map (fun it => nth (v it) g []) (skipn cur A)) p2) as (lk & E3 & Il & Edl).
      { intros o e I1 I2. destruct (Tg o e I1 I2) as (y & _ & Q). apply edge_lt in Q. lia. }
      rewrite E3. eexists. exists t. split; [reflexivity|]. cbn [rank active pi gr count cur_pos].
      assert (Cnew : forall y, In y C -> y < n /\ ~ settled R y).
      { intros y I. apply Cvert in I as (j & z & _ & Ez & <-). destruct (d_vert _ _ _ _ D j z Ez) as (Lz & r & Gz & _ & Bz). split; [exact Lz|].
        unfold settled. intros Q. assert (r = S n) by congruence. lia. }
      assert (Zero : forall y, get R2 y = Some 0 <-> get R y = Some 0).
      { intros y. destruct (in_dec Nat.eq_dec y C) as [I|NI]; [|destruct (B5 y NI) as [_ ->]; reflexivity]. destruct (B4 y I) as [_ ->].
        apply Cvert in I as (j & z & _ & Ez & <-). destruct (d_vert _ _ _ _ D j z Ez) as (_ & r & Gz & Pz & _). rewrite Gz. split; intros Q; injection Q; lia. }
      split.
      * constructor; cbn [rank active pi gr count cur_pos].
        -- eapply (dfs_settle _ R A cnt cur t R2 D eq_refl B3).
           ++ intros y I. apply B4. exact I.
           ++ intros y NI. apply B5. exact NI.
           ++ intros x' Ex'. assert (x' = x) as -> by congruence. exact Rx.
        -- exact Cur.
        -- eapply solved_ext; [|eapply (solved_more (settled R) p h C (v x) p2 lk Sol Cnew)].
           ++ intros y. cbn. unfold settled. destruct (in_dec Nat.eq_dec y C) as [I|NI].
              ** destruct (B4 y I) as [_ ->]. tauto.
              ** destruct (B5 y NI) as [_ ->]. tauto.
           ++ apply Cvert. exists cur, x. auto.
           ++ intros y z Iy Iz. apply Cvert in Iy as (j & a & Hj & Ea & <-). apply Cvert in Iz as (k & b & Hk & Eb & <-).
              destruct (St j a Hj Ea) as [S1 S2], (St k b Hk Eb) as [S3 S4]. split; eapply rt_trans; eauto.
           ++ intros y z Iy Ed. apply Cvert in Iy as (j & a & Hj & Ea & <-). destruct (Out j a z Hj Ea Ed) as [Q|(k & u & Hk & Eu & Vu)]; [left; exact Q|].
              right. apply Cvert. exists k, u. auto.
           ++ exact B2.
           ++ rewrite B1. exact R1.
           ++ intros y I. apply B4. exact I.
           ++ intros y NI. destruct (B5 y NI) as [Q _]. rewrite Q, G1. destruct (Nat.eqb_spec y (v x)) as [->|]; [|reflexivity].
              exfalso. apply NI. apply Cvert. exists cur, x. auto.
           ++ exact Il.
           ++ intros d. rewrite Edl. split; intros (N & Q); (split; [exact N|]).
              ** destruct Q as (o & e & I1 & I2 & Gd). destruct (Tg o e I1 I2) as (y & Iy & Ed). exists y, e. auto.
              ** destruct Q as (y & e & Iy & Ed & Gd). apply in_map_iff in Iy as (it & <- & I1). exists (nth (v it) g []), e.
                 split; [apply in_map_iff; exists it; auto|]. split; [|exact Gd]. destruct Ed as (l' & El' & I'). rewrite (nth_error_nth _ _ [] El'). exact I'.
        -- intros y Q. apply Gr. apply Zero. exact Q.
      * unfold weight. rewrite (fresh_ext R2 R Zero), (path_cons A cur t x Ex).
        rewrite (path_ext (firstn cur A) A t); [lia|]. intros q Iq.
        destruct (chain_get A (cur :: t) q (d_chain _ _ _ _ D) (or_intror Iq)) as [z Ez]. exists z, z.
        rewrite get_firstn. specialize (Desc q Iq). destruct (Nat.ltb_spec q cur); [auto|lia].
    + destruct (d_min _ _ _ _ D cur x Ex) as (j & u & Lj & Eu & Ru & Rr).
      assert (Lt : min x < rho).
      { destruct (Nat.eq_dec j cur) as [->|N]; [exfalso; assert (u = x) as -> by congruence; congruence|].
        apply (d_sorted _ _ _ _ D j cur u x (min x) rho ltac:(lia) Eu Ex Ru Rx). }
      assert (Cp : 0 < cur). { destruct (Nat.eq_dec j cur) as [->|N]; [exfalso; assert (u = x) as -> by congruence; congruence|lia]. }
      destruct cur as [|cur']; [lia|]. set (cur := S cur') in *.
      destruct (d_parent _ _ _ _ D cur' x Ex) as (Lp & q & Eq & Edq). fold cur in Lp. rewrite Eq.
      assert (It : In (parent x) t).
      { rewrite Cur in Eq |- *. destruct t as [|a t']; [cbn [hd] in Eq; apply get_lt in Eq; lia|left; reflexivity]. }
      destruct (Nat.ltb_spec (min x) (min q)) as [Hq|Hq].
      * set (q2 := mk_info (v q) (parent q) (next_edge q) (min x)).
        destruct (put_spec A (parent x) q2 ltac:(lia)) as (A2 & Ea & L2 & G2). rewrite Ea.
        destruct (d_vert _ _ _ _ D (parent x) q Eq) as (Lq & _). destruct (get_some g (v q) Lq) as [lq Elq].
        assert (D2 : dfs (cur :: t) R A2 cnt).
        { eapply (dfs_upd _ _ _ _ (parent x) q q2 _ lq D); auto.
          - right. exact It.
          - cbn [next_edge q2]. split; [lia|]. apply (d_next _ _ _ _ D (parent x) q lq Eq Elq).
          - cbn [min q2]. lia.
          - exists j, u. cbn [min q2]. split; [|split; [exact Eu|split; [exact Ru|eapply rt_trans; [apply rt_step; exact Edq|exact Rr]]]].
            destruct (Nat.le_gt_cases j (parent x)) as [|Q]; [assumption|]. exfalso.
            destruct (d_min _ _ _ _ D (parent x) q Eq) as (k & w & Lk & Ew & Rw & _).
            pose proof (d_sorted _ _ _ _ D k j w u (min q) (min x) ltac:(lia) Ew Eu Rw Ru). lia.
          - cbn [next_edge q2]. intros e y He. lia. }
        assert (Ex2 : get A2 cur = Some x) by (rewrite G2; destruct (Nat.eqb_spec cur (parent x)); [lia|exact Ex]).
        eexists. exists t. split; [reflexivity|]. cbn [rank active pi gr count cur_pos]. split.
        -- constructor; cbn [rank active pi gr count cur_pos]; auto.
           apply (dfs_pop _ R A2 cnt cur t x rho q2 l D2 eq_refl Ex2 El Hn' Rx Lt); [rewrite G2, Nat.eqb_refl; reflexivity|]. cbn [min q2]. lia.
        -- unfold weight. rewrite (path_cons A cur t x Ex), (path_ext A2 A t); [lia|]. intros a Ia.
           destruct (chain_get A (cur :: t) a (d_chain _ _ _ _ D) (or_intror Ia)) as [z Ez]. rewrite G2.
           destruct (Nat.eqb_spec a (parent x)) as [->|]; [exists q2, q; assert (z = q) as -> by congruence; auto|exists z, z; auto].
      * eexists. exists t. split; [reflexivity|]. cbn [rank active pi gr count cur_pos]. split.
        -- constructor; cbn [rank active pi gr count cur_pos]; auto. apply (dfs_pop _ R A cnt cur t x rho q l D eq_refl Ex El Hn' Rx Lt Eq Hq).
        -- unfold weight. rewrite (path_cons A cur t x Ex). lia.
Qed.

(** ** The whole *)

Lemma good_ends R0 path s : good R0 path s -> (negb (cur_pos s =? n) = false <-> path = []).
Proof.
  intros [D Hc _ _]. rewrite Hc. pose proof (dfs_length _ _ _ _ D) as LA. destruct path as [|p t]; cbn [hd].
  - rewrite Nat.eqb_refl. split; reflexivity.
  - pose proof (dfs_path_lt _ _ _ _ D p (or_introl eq_refl)). destruct (Nat.eqb_spec p n); [lia|]. split; discriminate.
Qed.

Lemma loop_ok R0 fuel path s : good R0 path s -> weight (rank s) (active s) path <= fuel ->
  exists s', while fuel (fun s => Some (negb (cur_pos s =? n))) (cells_step g) s = Some s' /\ good R0 [] s'.
Proof.
  revert path s. induction fuel as [|k IH]; intros path s G W.
  - destruct path as [|p t].
    + cbn [while]. destruct (good_ends R0 [] s G) as [_ E]. rewrite (E eq_refl). exists s. auto.
    + exfalso. destruct (cells_step_ok R0 (p :: t) s G ltac:(discriminate)) as (s' & path' & _ & _ & L). lia.
  - cbn [while]. destruct (good_ends R0 path s G) as [E1 E2]. destruct (negb (cur_pos s =? n)) eqn:Q.
    + destruct (cells_step_ok R0 path s G) as (s' & path' & E & G' & L).
      { intros Z. specialize (E2 Z). discriminate. }
      rewrite E. apply (IH path' s' G'). lia.
    + exists s. split; [reflexivity|]. rewrite <- (E1 eq_refl). exact G.
Qed.

Record idle (x0 : nat) (s : state) : Prop := {
  l_len : length (rank s) = n;
  l_act : active s = [];
  l_all : forall y, y < n -> get (rank s) y = Some 0 \/ get (rank s) y = Some (S n);
  l_done : forall y, y < x0 -> y < n -> get (rank s) y = Some (S n);
  l_sol : solved (settled (rank s)) (pi s) (gr s) }.

Lemma cells_ok : exists p h, cells g = Some (p, h) /\ length (d_class p) = n /\ length h = length (d_classRep p) /\
  (forall x c, get (d_class p) x = Some c -> c < length (d_classRep p)) /\
  (forall x y c d, get (d_class p) x = Some c -> get (d_class p) y = Some d -> (c = d <-> strong g x y)) /\
  (forall x y c d, edge g x y -> get (d_class p) x = Some c -> get (d_class p) y = Some d -> d <= c) /\
  (forall c r, get (d_classRep p) c = Some r -> get (d_class p) r = Some c) /\
  induced g (d_class p) h.
Proof.
  unfold cells.
  match goal with |- exists _ _, match for_up n 0 ?body ?st with _ => _ end = _ /\ _ =>
    destruct (for_up_rule idle n 0 body st) as (s & E & I) end.
  - constructor; cbn [rank active pi gr]; auto.
    + apply repeat_length.
    + intros y Hy. left. rewrite get_repeat. destruct (Nat.ltb_spec y n); [reflexivity|lia].
    + intros; lia.
    + assert (NS : forall y, ~ settled (repeat 0 n) y).
      { intros y. unfold settled. rewrite get_repeat. destruct (_ <? _); discriminate. }
      constructor; cbn [d_class d_classRep empty_partition]; try (intros y H; destruct (NS y H)); try (intros y z H; destruct (NS y H));
        try (intros y z c d H; destruct (NS y H)).
      * apply repeat_length.
      * reflexivity.
      * intros c r G. destruct c; discriminate.
      * intros c d. split.
        -- intros (l & El & _). destruct c; discriminate.
        -- intros (_ & x & y & H & _). destruct (NS x H).
      * intros l [].
  - intros x0 s Hx [L1 L2 L3 L4 L5]. destruct (get_some (rank s) x0 ltac:(lia)) as [r Er]. rewrite Er.
    destruct (Nat.ltb_spec r (S n)) as [H|H].
    + assert (r = 0) as ->. { destruct (L3 x0 ltac:(lia)) as [Q|Q]; [congruence|]. assert (r = S n) by congruence. lia. }
      destruct (put_spec (rank s) x0 1 ltac:(lia)) as (R1 & E1 & LR & GR). rewrite E1, L2. cbn [app].
      set (s0 := mk_state R1 [mk_info x0 n 0 1] (pi s) (gr s) 2 0).
      assert (NZ : nz R1 = S (nz (rank s))) by (apply (nz_put (rank s) x0 1 R1 Er E1); lia).
      assert (S1 : forall y, settled (rank s) y <-> settled R1 y).
      { intros y. unfold settled. rewrite GR. destruct (Nat.eqb_spec y x0) as [->|]; [|reflexivity]. rewrite Er. split; intros Q; injection Q; lia. }
      assert (One : forall i x, get [mk_info x0 n 0 1] i = Some x -> i = 0 /\ x = mk_info x0 n 0 1).
      { intros [|[|i]] x Q; try discriminate. cbn in Q. split; [reflexivity|congruence]. }
      assert (Rx : get R1 x0 = Some 1) by (rewrite GR, Nat.eqb_refl; reflexivity).
      assert (G0 : good R1 [0] s0).
      { constructor; cbn [rank active pi gr count cur_pos s0 hd]; auto.
        - constructor.
          + lia.
          + lia.
          + intros i x Q. apply One in Q as [-> ->]. cbn [v]. split; [lia|]. exists 1. split; [exact Rx|]. lia.
          + intros y Hy. rewrite GR. destruct (Nat.eqb_spec y x0) as [->|N].
            * right. right. exists 0, (mk_info x0 n 0 1). auto.
            * destruct (L3 y Hy); auto.
          + intros i j x z rho sig Hij Q1 Q2. apply One in Q1 as [-> ->]. apply One in Q2 as [-> ->]. lia.
          + intros x Q. apply One in Q as [_ ->]. reflexivity.
          + intros i x Q. apply One in Q as [Q _]. discriminate.
          + intros i x Q. apply One in Q as [-> ->]. exists 0, (mk_info x0 n 0 1). split; [lia|]. split; [reflexivity|]. split; [exact Rx|apply rt_refl].
          + split; [|exact I]. exists (mk_info x0 n 0 1). auto.
          + discriminate.
          + intros i x Q NI. apply One in Q as [-> _]. exfalso. apply NI. left. reflexivity.
          + intros i x l Q. apply One in Q as [_ ->]. cbn [next_edge]. lia.
          + intros i x l e y Q. apply One in Q as [_ ->]. cbn [next_edge]. lia.
          + intros p i x [<-|[]] Hp Q. apply One in Q as [-> _]. lia.
        - eapply solved_ext; [exact S1|exact L5]. }
      assert (W : weight R1 [mk_info x0 n 0 1] [0] <= edge_count g + n).
      { unfold weight. rewrite (path_cons [mk_info x0 n 0 1] 0 [] (mk_info x0 n 0 1) eq_refl). cbn [v next_edge].
        pose proof (fresh_put (rank s) R1 x0 1 ltac:(lia) Er ltac:(lia) GR). pose proof (fresh_total (rank s)). unfold path_weight. cbn [map list_sum fold_right]. lia. }
      destruct (loop_ok R1 _ [0] s0 G0 W) as (s' & E' & [D' _ Sol' Gr']). exists s'. split; [exact E'|].
      assert (A' : active s' = []) by (apply (d_empty _ _ _ _ D'); reflexivity).
      assert (All : forall y, y < n -> get (rank s') y = Some 0 \/ get (rank s') y = Some (S n)).
      { intros y Hy. destruct (d_seen _ _ _ _ D' y Hy) as [Q|[Q|(i & x & Q & _)]]; auto. rewrite A' in Q. destruct i; discriminate. }
      constructor; auto.
      * apply (d_lenR _ _ _ _ D').
      * intros y Hy Ly. destruct (All y Ly) as [Q|Q]; [|exact Q]. exfalso. apply Gr' in Q. rewrite GR in Q.
        destruct (Nat.eqb_spec y x0) as [->|N]; [discriminate|]. assert (y < x0) by lia. rewrite (L4 y) in Q by lia. discriminate.
    + exists s. split; [reflexivity|]. assert (r = S n). { destruct (L3 x0 ltac:(lia)) as [Q|Q]; [assert (r = 0) by congruence; lia|congruence]. }
      constructor; auto. intros y Hy Ly. destruct (Nat.eq_dec y x0) as [->|]; [congruence|]. apply L4; lia.
  - rewrite E. cbn [Nat.add] in I. destruct I as [L1 L2 L3 L4 L5]. destruct L5 as [A1 A2 A3 A4 A5 A6 A7 A8 A9].
    assert (All : forall y, y < n -> settled (rank s) y) by (intros y Hy; apply L4; lia).
    assert (Cl : forall y c, get (d_class (pi s)) y = Some c -> settled (rank s) y) by (intros y c G; apply All; apply get_lt in G; lia).
    exists (pi s), (gr s). split; [reflexivity|]. split; [exact A1|]. split; [exact A2|]. split; [|split; [|split; [|split; [|split]]]].
    + intros x c G. destruct (A3 x (Cl x c G)) as (c' & G' & L). assert (c' = c) by congruence. lia.
    + intros x y c d Gx Gy. apply A6; eauto.
    + intros x y c d Ed Gx Gy. apply (A5 x y); eauto.
    + intros c r G. apply (A7 c r G).
    + intros c d. rewrite A8. split; intros (N & x & y & Q); (split; [exact N|]); exists x, y; [tauto|].
      destruct Q as (Q1 & Q2 & Q3). split; [|auto]. eapply Cl. exact Q2.
    + exact A9.
Qed.
End Cells.
