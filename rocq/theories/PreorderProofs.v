From Coq Require Import List Arith Bool Lia Relations Sorted.
From Verif Require Import VecModel VecProofs PermProofs SetModel SetProofs PreorderModel PreorderSpec.
Import ListNotations.
Open Scope nat_scope.
Open Scope vec_scope.

(** *** forests of references; R gives the root, d decreases along references *)
Record forest (n : nat) (r : list nat) (R d : nat -> nat) : Prop := {
  f_len : length r = n;
  f_step : forall x m, get r x = Some m -> m < n /\ R m = R x;
  f_down : forall x m, get r x = Some m -> m <> x -> d m < d x;
  f_root : forall x, get r x = Some x -> R x = x;
  f_R : forall x, x < n -> R x < n /\ get r (R x) = Some (R x) }.

Lemma root_loop_ok n r R d : forest n r R d -> forall fuel seen x, x < n -> NoDup seen -> (forall v, In v seen -> v < n /\ d x < d v) ->
  n <= length seen + fuel -> root_from fuel r x = Some (R x).
Proof.
  intros F fuel. induction fuel as [|k IH]; intros seen x Hx N S L; cbn [root_from].
  - destruct (get_some r x) as [m E]; [rewrite (f_len _ _ _ _ F); exact Hx|]. rewrite E. exfalso.
    assert (In x seen).
    { apply (NoDup_length_incl N (l' := seq 0 n)); [rewrite seq_length; lia| |apply in_seq; lia].
      intros v Hv. apply in_seq. destruct (S v Hv). lia. }
    destruct (S x H). lia.
  - destruct (get_some r x) as [m E]; [rewrite (f_len _ _ _ _ F); exact Hx|]. rewrite E.
    destruct (Nat.eqb_spec m x) as [->|D]; [rewrite (f_root _ _ _ _ F x E); reflexivity|].
    destruct (f_step _ _ _ _ F x m E) as [Hm Em]. assert (Dm := f_down _ _ _ _ F x m E D). rewrite <- Em.
    apply (IH (x :: seen)); [exact Hm| | |cbn [length]; lia].
    + constructor; [|exact N]. intros I. destruct (S x I). lia.
    + intros v [<-|I]; [auto|]. destruct (S v I). split; [auto|lia].
Qed.
Lemma root_ok n r R d x : forest n r R d -> x < n -> root_from n r x = Some (R x).
Proof. intros F Hx. apply (root_loop_ok n r R d F n [] x); auto; [constructor|intros v []]. Qed.

Lemma root_from_frame n R d r r' fuel : forest n r R d -> forall x, (forall v, d v <= d x -> get r' v = get r v) ->
  forall y, root_from fuel r x = Some y -> root_from fuel r' x = Some y.
Proof.
  intros F. induction fuel as [|k IH]; intros x H y; cbn [root_from]; rewrite (H x (le_n _)); destruct (get r x) as [m|] eqn:E; auto.
  destruct (Nat.eqb_spec m x) as [->|D]; auto. intros Q. apply IH; [|exact Q]. intros v Hv. apply H. assert (A := f_down _ _ _ _ F x m E D). lia.
Qed.
Lemma redirect n r R d x y r' : forest n r R d -> x < n -> x <> y -> R x = y -> put r x y = Some r' -> forest n r' R d.
Proof.
  intros F Hx D Ry P. destruct (put_inv _ _ _ _ P) as (L & L' & G).
  destruct (f_R _ _ _ _ F x Hx) as [Yn Gy]. rewrite Ry in Yn, Gy.
  assert (Ryy : R y = y) by (apply (f_root _ _ _ _ F); exact Gy).
  split.
  - rewrite L'. apply F.
  - intros z m. rewrite G. destruct (Nat.eqb_spec z x) as [->|]; [|apply F]. intros Q. injection Q as <-. split; [exact Yn|congruence].
  - intros z m. rewrite G. destruct (Nat.eqb_spec z x) as [->|]; [|apply F]. intros Q. injection Q as <-. intros _.
    (* d decreases strictly along the chain from x to its root *)
    clear G P L L' r'. remember (d x) as k eqn:Ek. revert x Hx D Ry Ek. induction k as [k IH] using lt_wf_ind. intros x Hx D Ry Ek.
    destruct (get_some r x) as [m E]; [rewrite (f_len _ _ _ _ F); exact Hx|]. destruct (Nat.eq_dec m x) as [->|Nm].
    { rewrite (f_root _ _ _ _ F x E) in Ry. congruence. }
    assert (A := f_down _ _ _ _ F x m E Nm). destruct (f_step _ _ _ _ F x m E) as [Hm Em].
    destruct (Nat.eq_dec m y) as [->|Ny]; [lia|]. assert (B := IH (d m) ltac:(lia) m Hm Ny ltac:(congruence) eq_refl). lia.
  - intros z. rewrite G. destruct (Nat.eqb_spec z x) as [->|]; [|apply F]. intros Q. injection Q as <-. congruence.
  - intros z Hz. destruct (f_R _ _ _ _ F z Hz) as [A B]. split; [exact A|]. rewrite G. destruct (Nat.eqb_spec (R z) x) as [Q|]; [|exact B].
    exfalso. rewrite Q in B. rewrite (f_root _ _ _ _ F x B) in Ry. congruence.
Qed.
Lemma shortcut_ok n R d y fuel : forall r x, forest n r R d -> x < n -> root_from fuel r x = Some y -> R x = y ->
  exists r', shortcut fuel r x y = Some r' /\ forest n r' R d.
Proof.
  induction fuel as [|k IH]; intros r x F Hx; cbn [root_from shortcut]; destruct (get r x) as [m|] eqn:E; try discriminate.
  - destruct (Nat.eqb_spec m x) as [->|D]; [|discriminate]. intros Q Ry. injection Q as <-. rewrite Nat.eqb_refl. eauto.
  - destruct (Nat.eqb_spec m x) as [->|D].
    + intros Q Ry. injection Q as <-. rewrite Nat.eqb_refl. eauto.
    + intros Q Ry. destruct (Nat.eqb_spec x y) as [->|Dy]; [eauto|].
      destruct (put_spec r x y) as (r1 & P & L & G); [eapply get_lt; eauto|]. rewrite P.
      assert (F1 : forest n r1 R d) by (eapply redirect; eauto).
      destruct (f_step _ _ _ _ F x m E) as [Hm Em]. apply IH; [exact F1|exact Hm| |congruence].
      eapply root_from_frame; [exact F| |exact Q]. intros v Hv. rewrite G. destruct (Nat.eqb_spec v x) as [->|]; [|reflexivity].
      assert (A := f_down _ _ _ _ F x m E D). lia.
Qed.
Lemma link_roots n r R d i y r' : forest n r R d -> i < n -> y < n -> R i = i -> R y = y -> i <> y -> put r i y = Some r' ->
  forest n r' (fun x => if R x =? i then y else R x) (fun x => if R x =? i then S (d x + d y) else d x).
Proof.
  intros F Hi Hy Ri Ry D P. destruct (put_inv _ _ _ _ P) as (L & L' & G). split.
  - rewrite L'. apply F.
  - intros x m. rewrite G. destruct (Nat.eqb_spec x i) as [->|].
    + intros Q. injection Q as <-. split; [exact Hy|]. rewrite Ri, Nat.eqb_refl, Ry. destruct (Nat.eqb_spec y i); congruence.
    + intros E. destruct (f_step _ _ _ _ F x m E) as [A B]. rewrite B. auto.
  - intros x m. rewrite G. destruct (Nat.eqb_spec x i) as [->|].
    + intros Q Nm. injection Q as <-. rewrite Ri, Nat.eqb_refl, Ry. destruct (Nat.eqb_spec y i); [congruence|lia].
    + intros E Nm. destruct (f_step _ _ _ _ F x m E) as [A B]. assert (C := f_down _ _ _ _ F x m E Nm). rewrite B.
      destruct (R x =? i); lia.
  - intros x. rewrite G. destruct (Nat.eqb_spec x i) as [->|].
    + intros Q. injection Q as <-. congruence.
    + intros E. rewrite (f_root _ _ _ _ F x E). destruct (Nat.eqb_spec x i); congruence.
  - intros x Hx. destruct (f_R _ _ _ _ F x Hx) as [A B]. destruct (Nat.eqb_spec (R x) i) as [Q|Q].
    + split; [exact Hy|]. rewrite G. destruct (Nat.eqb_spec y i); [congruence|].
      destruct (f_R _ _ _ _ F y Hy) as [_ C]. congruence.
    + split; [exact A|]. rewrite G. destruct (Nat.eqb_spec (R x) i); congruence.
Qed.

(** *** a measure that bounds the number of rounds *)
Definition weight (n : nat) (s : preorder) (x : nat) : nat :=
  match get (refs s) x, get (outs s) x with
  | Some m, Some b => if m =? x then S n - bs_size b else 0
  | _, _ => 0
  end.
Definition measure (n : nat) (s : preorder) : nat := list_sum (map (weight n s) (seq 0 n)).
Lemma sum_le (f g : nat -> nat) l : (forall x, In x l -> f x <= g x) -> list_sum (map f l) <= list_sum (map g l).
Proof.
  induction l as [|x l IH]; intros H; [reflexivity|]. cbn [map]. change (list_sum (?a :: ?r)) with (a + list_sum r).
  specialize (H x (or_introl eq_refl)) as A. specialize (IH (fun z I => H z (or_intror I))). lia.
Qed.
Lemma sum_lt (f g : nat -> nat) l x : (forall x, In x l -> f x <= g x) -> In x l -> f x < g x -> list_sum (map f l) < list_sum (map g l).
Proof.
  induction l as [|z l IH]; intros H I S; [destruct I|]. cbn [map]. change (list_sum (?a :: ?r)) with (a + list_sum r).
  specialize (H z (or_introl eq_refl)) as A. assert (B := fun v I => H v (or_intror I)). destruct I as [->|I].
  - assert (C := sum_le f g l B). lia.
  - specialize (IH B I S). lia.
Qed.
Lemma size_le (b : bset) : bs_size b <= length b.
Proof. unfold bs_size. induction b as [|[] b IH]; cbn; lia. Qed.
Lemma size_mono (a b : bset) : length a = length b -> (forall j, bs_mem a j = true -> bs_mem b j = true) -> bs_size a <= bs_size b.
Proof.
  revert b. induction a as [|x a IH]; intros [|y b] L H; try discriminate; [reflexivity|].
  specialize (IH b ltac:(cbn in L; lia) (fun j => H (S j))). unfold bs_size in *. cbn [filter].
  specialize (H 0). cbn in H. destruct x; [rewrite H by reflexivity|destruct y]; cbn [length]; lia.
Qed.
Lemma size_strict (a b : bset) x : length a = length b -> (forall j, bs_mem a j = true -> bs_mem b j = true) ->
  bs_mem a x = false -> bs_mem b x = true -> bs_size a < bs_size b.
Proof.
  revert b x. induction a as [|u a IH]; intros [|v b] x L H A B; try discriminate; [destruct x; discriminate|].
  assert (H' := fun j => H (S j)). assert (L' : length a = length b) by (cbn in L; lia).
  assert (H0 := H 0). cbn in H0. destruct x as [|x].
  - cbn in A, B. subst u v. assert (Q := size_mono a b L' H'). unfold bs_size in *. cbn. lia.
  - specialize (IH b x L' H' A B). unfold bs_size in *. cbn [filter]. destruct u; [rewrite H0 by reflexivity|destruct v]; cbn [length]; lia.
Qed.

(** *** the closure loops *)
Section Closure.
Variables (n : nat) (E : nat -> nat -> Prop).
Hypothesis E_lt : forall x y, E x y -> x < n /\ y < n.
Definition CT := clos_trans nat E.
Definition rel (s : preorder) (R : nat -> nat) (x y : nat) : Prop := exists b, get (outs s) (R x) = Some b /\ bs_mem b y = true.
Record inv (s : preorder) (R d : nat -> nat) : Prop := {
  i_len : length (outs s) = n;
  i_forest : forest n (refs s) R d;
  i_rows : forall x b, get (outs s) x = Some b -> R x = x -> length b = n;
  i_gone : forall x b, get (outs s) x = Some b -> R x <> x -> b = [];
  i_sound : forall x y, x < n -> rel s R x y -> CT x y;
  i_eqv : forall x, x < n -> R x <> x -> CT x (R x) /\ CT (R x) x;
  i_base : forall x y, E x y -> rel s R x y }.

Lemma rel_same s R x x' y : R x = R x' -> rel s R x y -> rel s R x' y.
Proof. intros H (b & A & B). exists b. split; [congruence|exact B]. Qed.
Lemma rel_mem s R x y b : get (outs s) (R x) = Some b -> (rel s R x y <-> bs_mem b y = true).
Proof. intros G. split; [intros (c & A & B); congruence|intros; exists b; auto]. Qed.
Lemma root_idem s R d x : inv s R d -> x < n -> R (R x) = R x.
Proof. intros I Hx. apply (f_root _ _ _ _ (i_forest _ _ _ I)). apply (f_R _ _ _ _ (i_forest _ _ _ I) x Hx). Qed.

(** for a round in which nothing has been added, the members of a row that has been done *)
Definition good (s : preorder) (R : nat -> nat) (i x : nat) : Prop :=
  (forall z, rel s R x z -> rel s R i z) /\ (R x = i \/ ~ rel s R x i).
(** what holds in the middle of a round that started with relation rel0 and measure m0 *)
Definition mid (rel0 : nat -> nat -> Prop) (m0 i : nat) (s : preorder) (R d : nat -> nat) : Prop :=
  inv s R d /\ measure n s <= m0 /\ (ready s = false -> measure n s < m0) /\
  (ready s = true -> (forall x y, x < n -> (rel s R x y <-> rel0 x y)) /\
     forall j x, j < i -> R j = j -> rel s R j x -> good s R j x).

Lemma measure_refs s r : (forall x, x < n -> get r x = Some x <-> get (refs s) x = Some x) -> length r = n -> length (refs s) = n ->
  measure n (mk_po (outs s) r (ready s)) = measure n s.
Proof.
  intros H L L'. unfold measure. f_equal. apply map_ext_in. intros x Hx. apply in_seq in Hx. unfold weight. cbn [refs outs].
  destruct (get_some r x) as [m Em]; [lia|]. destruct (get_some (refs s) x) as [m' Em']; [lia|]. rewrite Em, Em'.
  destruct (get (outs s) x); [|reflexivity]. specialize (H x ltac:(lia)). rewrite Em, Em' in H.
  destruct (Nat.eqb_spec m x) as [->|N], (Nat.eqb_spec m' x) as [->|N']; auto; exfalso; [apply N'|apply N]; destruct H as [H1 H2];
   [specialize (H1 eq_refl)|specialize (H2 eq_refl)]; congruence.
Qed.
Lemma forest_root_iff r R d x : forest n r R d -> x < n -> get r x = Some x <-> R x = x.
Proof.
  intros F Hx. split; [apply F|]. intros Q. destruct (f_R _ _ _ _ F x Hx) as [_ A]. rewrite Q in A. exact A.
Qed.
(** changing references but not roots *)
Lemma mid_refs rel0 m0 i s R d r : mid rel0 m0 i s R d -> forest n r R d -> mid rel0 m0 i (mk_po (outs s) r (ready s)) R d.
Proof.
  intros (I & M & M1 & G) F. unfold mid. rewrite (measure_refs s r).
  2:{ intros x Hx. rewrite (forest_root_iff r R d x F Hx), (forest_root_iff (refs s) R d x (i_forest _ _ _ I) Hx). tauto. }
  2:{ apply F. } 2:{ apply (i_forest _ _ _ I). }
  split; [|auto]. destruct I. split; auto.
Qed.

Lemma contains_false (a b : bset) : bs_contains a b = Some false -> exists j, bs_mem b j = true /\ bs_mem a j = false.
Proof.
  revert b. induction a as [|x a IH]; intros [|y b] Q; cbn [bs_contains] in Q; try discriminate.
  destruct (bs_contains a b) as [r|] eqn:Er; [|discriminate]. destruct r.
  - rewrite andb_true_r in Q. injection Q as Q. exists 0. cbn. destruct x, y; cbn in *; auto; discriminate.
  - destruct (IH b Er) as (j & A & B). exists (S j). auto.
Qed.
Lemma measure_lt s s' i : i < n -> weight n s' i < weight n s i -> (forall x, x < n -> weight n s' x <= weight n s x) -> measure n s' < measure n s.
Proof.
  intros Hi A B. apply (sum_lt _ _ _ i); [|apply in_seq; lia|exact A]. intros x Hx. apply in_seq in Hx. apply B. lia.
Qed.
Lemma weight_root s R d x b : inv s R d -> R x = x -> get (outs s) x = Some b -> weight n s x = S n - bs_size b.
Proof.
  intros I Rx G. unfold weight. assert (Hx : x < n) by (apply get_lt in G; rewrite (i_len _ _ _ I) in G; exact G).
  rewrite (proj2 (forest_root_iff _ _ _ _ (i_forest _ _ _ I) Hx) Rx), G, Nat.eqb_refl. reflexivity.
Qed.
Lemma weight_non s R d x : inv s R d -> x < n -> R x <> x -> weight n s x = 0.
Proof.
  intros I Hx Rx. unfold weight. destruct (get (refs s) x) as [m|] eqn:Em; [|reflexivity]. destruct (get (outs s) x); [|reflexivity].
  destruct (Nat.eqb_spec m x) as [->|]; [|reflexivity]. destruct Rx. apply (f_root _ _ _ _ (i_forest _ _ _ I)). exact Em.
Qed.

(** merging root i into root y; x0 is a member of row i in the tree of y *)
Lemma merge_ok rel0 m0 i y x0 s R d dd oy u o r o' : mid rel0 m0 i s R d -> i < n -> R i = i -> i <> y -> x0 < n -> R x0 = y ->
  get (outs s) i = Some dd -> bs_mem dd x0 = true -> get (outs s) y = Some oy -> bs_mem oy i = true ->
  bs_or oy dd = Some u -> put (outs s) y u = Some o -> put (refs s) i y = Some r -> put o i [] = Some o' ->
  exists R' d', mid rel0 m0 (S i) (mk_po o' r (ready s && bs_eqb oy dd)) R' d'.
Proof.
  intros (I & M & M1 & G) Hi Ri D Hx0 Rx0 Gi Mx0 Gy Myi Eu Eo Er Eo'.
  assert (Hy : y < n) by (apply get_lt in Gy; rewrite (i_len _ _ _ I) in Gy; exact Gy).
  assert (Ry : R y = y) by (rewrite <- Rx0; apply (root_idem s R d); auto).
  assert (Ldd : length dd = n) by (eapply i_rows; eauto). assert (Loy : length oy = n) by (eapply i_rows; eauto).
  destruct (or_ok oy dd) as (u' & Eu' & Lu & Mu); [lia|]. rewrite Eu in Eu'. injection Eu' as <-.
  destruct (put_inv _ _ _ _ Eo) as (_ & Lo & Go). destruct (put_inv _ _ _ _ Eo') as (_ & Lo' & Go').
  set (R' := fun x => if R x =? i then y else R x).
  assert (Gy' : get o' y = Some u) by (rewrite Go', Go, Nat.eqb_refl; destruct (Nat.eqb_spec y i); congruence).
  assert (Gz : forall z, z <> i -> z <> y -> get o' z = get (outs s) z).
  { intros z A B. rewrite Go', Go. destruct (Nat.eqb_spec z i); [congruence|]. destruct (Nat.eqb_spec z y); congruence. }
  set (s' := mk_po o' r (ready s && bs_eqb oy dd)).
  assert (Rl : forall x z, rel s' R' x z <-> (if (R x =? i) || (R x =? y) then rel s R i z \/ rel s R y z else rel s R x z)).
  { intros x z. unfold rel at 1. unfold R'. cbn [outs s']. 
    assert (Q : (exists b, get o' y = Some b /\ bs_mem b z = true) <-> rel s R i z \/ rel s R y z).
    { rewrite (rel_mem s R i z dd), (rel_mem s R y z oy) by congruence. rewrite Gy'. split.
      - intros (b & Eb & Mb). injection Eb as <-. rewrite Mu, orb_true_iff in Mb. tauto.
      - intros H. exists u. split; [reflexivity|]. rewrite Mu, orb_true_iff. tauto. }
    destruct (Nat.eqb_spec (R x) i) as [A|A]; [exact Q|]. cbn [orb]. destruct (Nat.eqb_spec (R x) y) as [B|B].
    - rewrite B. exact Q.
    - rewrite Gz by assumption. unfold rel. tauto. }
  assert (F' := link_roots n (refs s) R d i y r (i_forest _ _ _ I) Hi Hy Ri Ry D Er).
  assert (R'self : forall x, R' x = x <-> R x = x /\ x <> i).
  { intros x. unfold R'. destruct (Nat.eqb_spec (R x) i) as [A|A].
    - split; [intros <-; congruence|intros [B C]; congruence].
    - split; [intros B; split; congruence|intros [B C]; congruence]. }
  assert (CTi0 : CT i x0) by (apply (i_sound _ _ _ I i x0 Hi); exists dd; rewrite Ri; auto).
  assert (RY : forall x, R x = y -> x < n -> CT x i).
  { intros x A Hx. apply (i_sound _ _ _ I x i Hx). exists oy. rewrite A. auto. }
  exists R', (fun x => if R x =? i then S (d x + d y) else d x). 
  assert (I' : inv s' R' (fun x => if R x =? i then S (d x + d y) else d x)).
  { split.
    - cbn. rewrite Lo', Lo. apply I.
    - exact F'.
    - intros x b Gx Sx. apply R'self in Sx. destruct Sx as [Sx Nx]. cbn in Gx. destruct (Nat.eq_dec x y) as [->|].
      + rewrite Gy' in Gx. injection Gx as <-. lia.
      + rewrite Gz in Gx by assumption. eapply i_rows; eauto.
    - intros x b Gx Sx. cbn in Gx. destruct (Nat.eq_dec x i) as [->|Nx].
      + rewrite Go', Nat.eqb_refl in Gx. congruence.
      + destruct (Nat.eq_dec x y) as [->|Ny]; [exfalso; apply Sx, R'self; auto|].
        rewrite Gz in Gx by assumption. eapply i_gone; [exact I|exact Gx|]. intros A. apply Sx, R'self. auto.
    - intros x z Hx H. apply Rl in H.
      destruct (Nat.eqb_spec (R x) i) as [A|A]; [|destruct (Nat.eqb_spec (R x) y) as [B|B]]; cbn [orb] in H.
      + destruct H as [H|H].
        * apply (i_sound _ _ _ I); [exact Hx|]. eapply rel_same; [|exact H]. congruence.
        * eapply t_trans with (y := x0).
          -- apply (i_sound _ _ _ I); [exact Hx|]. exists dd. rewrite A. auto.
          -- apply (i_sound _ _ _ I); [exact Hx0|]. eapply rel_same; [|exact H]. congruence.
      + destruct H as [H|H].
        * eapply t_trans; [apply RY; auto|]. apply (i_sound _ _ _ I); auto.
        * apply (i_sound _ _ _ I); [exact Hx|]. eapply rel_same; [|exact H]. congruence.
      + apply (i_sound _ _ _ I); auto.
    - intros x Hx Sx. unfold R' in *. destruct (Nat.eqb_spec (R x) i) as [A|A].
      + assert (Xi : x = i \/ x <> i) by lia. assert (CTyi : CT y i) by (apply RY; auto).
        assert (CTiy : CT i y).
        { destruct (Nat.eq_dec x0 y) as [<-|N0]; [exact CTi0|]. destruct (i_eqv _ _ _ I x0 Hx0) as [B _]; [congruence|].
          rewrite Rx0 in B. eapply t_trans; [exact CTi0|exact B]. }
        destruct Xi as [->|Nx]; [auto|]. destruct (i_eqv _ _ _ I x Hx) as [B C]; [congruence|]. rewrite A in B, C.
        split; eapply t_trans; eauto.
      + apply (i_eqv _ _ _ I x Hx Sx).
    - intros x z Hxz. apply Rl. assert (A := i_base _ _ _ I x z Hxz).
      destruct (Nat.eqb_spec (R x) i) as [B|B]; [|destruct (Nat.eqb_spec (R x) y) as [C|C]]; cbn [orb]; [left|right|exact A];
        eapply rel_same; [|exact A| |exact A]; congruence. }
  assert (Ms : measure n s' < measure n s).
  { apply (measure_lt s s' i Hi).
    - rewrite (weight_non s' R' _ i I' Hi) by (intros A; apply R'self in A; tauto). rewrite (weight_root s R d i dd I Ri Gi).
      assert (A := size_le dd). lia.
    - intros x Hx. destruct (Nat.eq_dec (R' x) x) as [A|A]; [|rewrite (weight_non s' R' _ x I' Hx A); lia].
      assert (A' := A). apply R'self in A'. destruct A' as [B C]. destruct (Nat.eq_dec x y) as [->|N].
      + rewrite (weight_root s' R' _ y u I' A Gy'), (weight_root s R d y oy I B Gy).
        assert (S := size_mono oy u ltac:(lia)). assert (T : bs_size oy <= bs_size u); [|lia]. apply S. intros j Hj. rewrite Mu, Hj. reflexivity.
      + destruct (get_some (outs s) x) as [b Gx]; [rewrite (i_len _ _ _ I); exact Hx|].
        rewrite (weight_root s R d x b I B Gx), (weight_root s' R' _ x b I' A); [lia|]. cbn. rewrite Gz; auto. }
  split; [exact I'|]. split; [lia|]. split; [intros; lia|]. cbn [ready s']. intros T. apply andb_true_iff in T. destruct T as [T1 T2].
  apply bs_eqb_ok in T2. subst oy. destruct (G T1) as [G1 G2].
  assert (Same : forall x z, rel s' R' x z <-> rel s R x z).
  { intros x z. rewrite Rl. assert (Q1 := rel_mem s R i z dd ltac:(congruence)). assert (Q2 := rel_mem s R y z dd ltac:(congruence)).
    destruct (Nat.eqb_spec (R x) i) as [A|A]; [|destruct (Nat.eqb_spec (R x) y) as [B|B]]; cbn [orb]; [| |tauto].
    - rewrite (rel_mem s R x z dd) by congruence. tauto.
    - rewrite (rel_mem s R x z dd) by congruence. tauto. }
  split; [intros x z Hx; rewrite Same; apply G1; exact Hx|].
  intros j x Hj Sj H. apply R'self in Sj. destruct Sj as [Sj Nj]. apply Same in H. destruct (G2 j x ltac:(lia) Sj H) as [A B]. split.
  - intros z Hz. apply Same. apply A. apply Same. exact Hz.
  - rewrite Same. destruct B as [B|B]; [left|right; exact B]. unfold R'. destruct (Nat.eqb_spec (R x) i); congruence.
Qed.

(** adding row y to row i *)
Lemma union_ok rel0 m0 i y x0 s R d dd oy u o : mid rel0 m0 i s R d -> i < n -> R i = i -> i <> y -> x0 < n -> R x0 = y ->
  get (outs s) i = Some dd -> bs_mem dd x0 = true -> get (outs s) y = Some oy -> bs_contains dd oy = Some false ->
  bs_or dd oy = Some u -> put (outs s) i u = Some o ->
  mid rel0 m0 i (mk_po o (refs s) false) R d.
Proof.
  intros (I & M & M1 & G) Hi Ri D Hx0 Rx0 Gi Mx0 Gy Ec Eu Eo.
  assert (Hy : y < n) by (apply get_lt in Gy; rewrite (i_len _ _ _ I) in Gy; exact Gy).
  assert (Ry : R y = y) by (rewrite <- Rx0; apply (root_idem s R d); auto).
  assert (Ldd : length dd = n) by (eapply i_rows; eauto). assert (Loy : length oy = n) by (eapply i_rows; eauto).
  destruct (or_ok dd oy) as (u' & Eu' & Lu & Mu); [lia|]. rewrite Eu in Eu'. injection Eu' as <-.
  destruct (put_inv _ _ _ _ Eo) as (_ & Lo & Go). set (s' := mk_po o (refs s) false).
  assert (Rl : forall x z, rel s' R x z <-> (if R x =? i then rel s R i z \/ rel s R y z else rel s R x z)).
  { intros x z. unfold rel at 1. cbn [outs s']. rewrite Go. destruct (Nat.eqb_spec (R x) i) as [A|A]; [|unfold rel; tauto].
    rewrite (rel_mem s R i z dd), (rel_mem s R y z oy) by congruence. split.
    - intros (b & Eb & Mb). injection Eb as <-. rewrite Mu, orb_true_iff in Mb. tauto.
    - intros H. exists u. split; [reflexivity|]. rewrite Mu, orb_true_iff. tauto. }
  assert (I' : inv s' R d).
  { split.
    - cbn. rewrite Lo. apply I.
    - apply I.
    - intros x b Gx Sx. cbn in Gx. rewrite Go in Gx. destruct (Nat.eqb_spec x i) as [->|]; [|eapply i_rows; eauto].
      injection Gx as <-. lia.
    - intros x b Gx Sx. cbn in Gx. rewrite Go in Gx. destruct (Nat.eqb_spec x i) as [->|]; [congruence|eapply i_gone; eauto].
    - intros x z Hx H. apply Rl in H. destruct (Nat.eqb_spec (R x) i) as [A|A]; [|apply (i_sound _ _ _ I); auto].
      destruct H as [H|H].
      + apply (i_sound _ _ _ I); [exact Hx|]. eapply rel_same; [|exact H]. congruence.
      + eapply t_trans with (y := x0).
        * apply (i_sound _ _ _ I); [exact Hx|]. exists dd. rewrite A. auto.
        * apply (i_sound _ _ _ I); [exact Hx0|]. eapply rel_same; [|exact H]. congruence.
    - apply I.
    - intros x z Hxz. apply Rl. assert (A := i_base _ _ _ I x z Hxz). destruct (Nat.eqb_spec (R x) i) as [B|B]; [left|exact A].
      eapply rel_same; [|exact A]. congruence. }
  assert (Gi' : get (outs s') i = Some u) by (cbn; rewrite Go, Nat.eqb_refl; reflexivity).
  assert (Ms : measure n s' < measure n s).
  { apply (measure_lt s s' i Hi).
    - rewrite (weight_root s' R d i u I' Ri Gi'), (weight_root s R d i dd I Ri Gi). destruct (contains_false dd oy Ec) as (j & J1 & J2).
      assert (A : bs_size dd < bs_size u).
      { apply (size_strict dd u j); [lia| |exact J2|rewrite Mu, J1; apply orb_true_r]. intros k Hk. rewrite Mu, Hk. reflexivity. }
      assert (B := size_le u). lia.
    - intros x Hx. destruct (Nat.eq_dec (R x) x) as [A|A]; [|rewrite (weight_non s' R d x I' Hx A); lia].
      destruct (Nat.eq_dec x i) as [->|N].
      + rewrite (weight_root s' R d i u I' Ri Gi'), (weight_root s R d i dd I Ri Gi).
        assert (bs_size dd <= bs_size u); [|lia]. apply size_mono; [lia|]. intros k Hk. rewrite Mu, Hk. reflexivity.
      + destruct (get_some (outs s) x) as [b Gx]; [rewrite (i_len _ _ _ I); exact Hx|].
        rewrite (weight_root s R d x b I A Gx), (weight_root s' R d x b I' A); [lia|]. cbn. rewrite Go. destruct (Nat.eqb_spec x i); [congruence|exact Gx]. }
  split; [exact I'|]. split; [lia|]. split; [intros; lia|]. cbn. discriminate.
Qed.

Lemma scan_ok rel0 m0 i fuel : forall lo s R d, i < n -> mid rel0 m0 i s R d -> R i = i -> n - lo <= fuel ->
  (ready s = true -> forall x, x < lo -> rel s R i x -> good s R i x) ->
  exists s' R' d', scan fuel i lo s = Some s' /\ mid rel0 m0 (S i) s' R' d'.
Proof.
  induction fuel as [|k IH]; intros lo s R d Hi Mid Ri Hf Hlo; assert (I := proj1 Mid).
  all: destruct (get_some (outs s) i) as [dd Gi]; [rewrite (i_len _ _ _ I); exact Hi|].
  all: cbn [scan]; rewrite Gi.
  all: assert (Ldd : length dd = n) by (eapply i_rows; eauto).
  all: assert (Nx := next_ok dd lo); destruct (bs_next dd lo) as [x|].
  1: lia.
  1,3: exists s, R, d; split; [reflexivity|]; destruct Mid as (_ & M & M1 & G); split; [exact I|]; split; [exact M|]; split; [exact M1|];
    intros T; destruct (G T) as [G1 G2]; split; [exact G1|]; intros j x Hj Sj H;
    destruct (Nat.eq_dec j i) as [->|]; [|apply G2; auto; lia];
    apply (Hlo T); [|exact H]; destruct (Nat.lt_ge_cases x lo) as [|Q]; [auto|]; exfalso; specialize (Nx x Q); destruct H as (b & Gb & Mb); rewrite Ri in Gb; congruence.
  destruct Nx as (Hx & Mx & Nx). assert (Hxn : x < n) by lia.
  assert (F := i_forest _ _ _ I). assert (Sz : size s = n) by (apply (f_len _ _ _ _ F)).
  assert (Next : forall s' R' d' r, mid rel0 m0 i s' R' d' -> R' i = i -> outs s' = outs s -> ready s' = ready s -> R' = R -> refs s' = r -> (ready s = true -> good s R i x) ->
    exists s2 R2 d2, scan k i (S x) s' = Some s2 /\ mid rel0 m0 (S i) s2 R2 d2).
  { intros s' R' d' r M' R'i Eo Er -> _ Gx. apply (IH (S x) s' R d' Hi M' R'i); [lia|]. rewrite Er. intros T z Hz H.
    assert (Rs : forall a b, rel s' R a b <-> rel s R a b) by (intros; unfold rel; rewrite Eo; tauto).
    assert (Gs : good s R i z); [|destruct Gs as [A B]; split; [intros w; rewrite !Rs; apply A|rewrite Rs; exact B]].
    apply Rs in H. destruct (Nat.eq_dec z x) as [->|]; [auto|]. apply (Hlo T); [|exact H].
    destruct (Nat.lt_ge_cases z lo) as [|Q]; [auto|]. exfalso. specialize (Nx z ltac:(lia)). destruct H as (b & Gb & Mb). rewrite Ri in Gb. congruence. }
  destruct (get_some (refs s) x) as [y0 Ey0]; [rewrite (f_len _ _ _ _ F); exact Hxn|]. rewrite Ey0.
  destruct (f_step _ _ _ _ F x y0 Ey0) as [Hy0 Ry0].
  assert (Same : R x = i -> ready s = true -> good s R i x).
  { intros A _. split; [|auto]. intros z. apply rel_same. congruence. }
  destruct (Nat.eqb_spec y0 i) as [->|D0].
  { apply (Next s R d (refs s)); auto. intros T. apply Same; [congruence|exact T]. }
  rewrite Sz, (root_ok n (refs s) R d y0 F Hy0). rewrite Ry0.
  destruct (shortcut_ok n R d (R x) n (refs s) x F Hxn (root_ok n (refs s) R d x F Hxn) eq_refl) as (r & Er & Fr). rewrite Er.
  assert (Mid2 := mid_refs rel0 m0 i s R d r Mid Fr). set (s2 := mk_po (outs s) r (ready s)) in *.
  destruct (Nat.eqb_spec (R x) i) as [D|D].
  { apply (Next s2 R d r); auto. }
  destruct (f_R _ _ _ _ F x Hxn) as [HRx _].
  destruct (get_some (outs s) (R x)) as [oy Gy]; [rewrite (i_len _ _ _ I); exact HRx|]. rewrite Gy.
  assert (Loy : length oy = n) by (eapply i_rows; [exact I|exact Gy|apply (root_idem s R d); auto]).
  destruct (bs_mem oy i) eqn:Moy.
  - destruct (or_ok oy dd) as (u & Eu & Lu & Mu); [lia|]. rewrite Eu.
    destruct (put_spec (outs s) (R x) u) as (o & Eo & Lo & Go); [rewrite (i_len _ _ _ I); exact HRx|]. rewrite Eo.
    destruct (put_spec r i (R x)) as (r' & Er' & Lr' & Gr'); [rewrite (f_len _ _ _ _ Fr); exact Hi|]. rewrite Er'.
    destruct (put_spec o i []) as (o' & Eo' & Lo' & Go'); [rewrite Lo, (i_len _ _ _ I); exact Hi|]. rewrite Eo'.
    destruct (merge_ok rel0 m0 i (R x) x s2 R d dd oy u o r' o' Mid2) as (R' & d' & M'); auto.
    exists (mk_po o' r' (ready s && bs_eqb oy dd)), R', d'. split; [reflexivity|exact M'].
  - destruct (contains_ok dd oy) as (c & Ec & Rc); [lia|]. rewrite Ec. destruct c.
    + apply (Next s2 R d r); auto. intros T. split.
      * intros z. rewrite (rel_mem s R x z oy Gy), (rel_mem s R i z dd) by congruence. apply Rc. reflexivity.
      * right. rewrite (rel_mem s R x i oy Gy). congruence.
    + destruct (or_ok dd oy) as (u & Eu & Lu & Mu); [lia|]. rewrite Eu.
      destruct (put_spec (outs s) i u) as (o & Eo & Lo & Go); [rewrite (i_len _ _ _ I); exact Hi|]. rewrite Eo.
      assert (M' := union_ok rel0 m0 i (R x) x s2 R d dd oy u o Mid2 Hi Ri (fun Q => D (eq_sym Q)) Hxn eq_refl Gi Mx Gy Ec Eu Eo).
      apply (IH (S x) _ R d Hi M' Ri); [lia|]. cbn. discriminate.
Qed.

Definition closed (s : preorder) (R d : nat -> nat) : Prop :=
  inv s R d /\ forall j x, j < n -> R j = j -> rel s R j x -> good s R j x.
Lemma pass_ok s R d : inv s R d -> exists s' R' d', pass s = Some s' /\ inv s' R' d' /\
  (ready s' = false -> measure n s' < measure n s) /\ (ready s' = true -> closed s' R' d').
Proof.
  intros I. assert (Sz : size s = n) by (apply (f_len _ _ _ _ (i_forest _ _ _ I))). unfold pass. rewrite Sz.
  match goal with |- context [for_up n 0 ?body ?st] => destruct (for_up_rule (fun i s' => exists R' d', mid (rel s R) (measure n s) i s' R' d') n 0 body st) as (s' & E' & R' & d' & M') end.
  - exists R, d. split; [destruct I; split; auto|]. split; [apply Nat.le_refl|]. cbn [ready]. split; [discriminate|]. intros _. split; [|intros; lia].
    intros x y _. unfold rel. cbn. tauto.
  - intros i s' Hi (R' & d' & M'). assert (I' := proj1 M'). assert (F := i_forest _ _ _ I').
    destruct (get_some (refs s') i) as [m Em]; [rewrite (f_len _ _ _ _ F); lia|]. rewrite Em. destruct (Nat.eqb_spec m i) as [->|Nm].
    + assert (Sz' : size s' = n) by (apply (f_len _ _ _ _ F)). rewrite Sz'.
      destruct (scan_ok (rel s R) (measure n s) i n 0 s' R' d') as (s2 & R2 & d2 & E2 & M2); auto; [lia|apply F; exact Em|lia|intros; lia|].
      exists s2. split; [exact E2|]. eauto.
    + exists s'. split; [reflexivity|]. exists R', d'. destruct M' as (_ & A & B & C). split; [exact I'|]. split; [exact A|]. split; [exact B|].
      intros T. destruct (C T) as [C1 C2]. split; [exact C1|]. intros j x Hj Sj H. destruct (Nat.eq_dec j i) as [->|]; [|apply C2; auto; lia].
      exfalso. apply (forest_root_iff _ _ _ i F) in Sj; [congruence|lia].
  - exists s', R', d'. split; [exact E'|]. destruct M' as (A & B & C & D). split; [exact A|]. split; [exact C|]. intros T. split; [exact A|].
    apply (proj2 (D T)).
Qed.
Lemma passes_ok fuel : forall s R d, inv s R d -> measure n s <= fuel -> exists s' R' d', passes fuel s = Some s' /\ ready s' = true /\ closed s' R' d'.
Proof.
  induction fuel as [|k IH]; intros s R d I H; cbn [passes]; destruct (pass_ok s R d I) as (s' & R' & d' & E' & I' & A & B); rewrite E';
    destruct (ready s') eqn:T; eauto 8.
  - specialize (A eq_refl). lia.
  - apply (IH s' R' d' I'). specialize (A eq_refl). lia.
Qed.
Lemma measure_bound s : measure n s <= n * S n.
Proof.
  unfold measure. assert (G : forall l, list_sum (map (weight n s) l) <= length l * S n).
  { induction l as [|x l IH]; [reflexivity|]. cbn [map length]. change (list_sum (?a :: ?r)) with (a + list_sum r).
    assert (weight n s x <= S n); [|lia]. unfold weight. destruct (get (refs s) x); [|lia]. destruct (get (outs s) x); [|lia]. destruct (_ =? _); lia. }
  specialize (G (seq 0 n)). rewrite seq_length in G. exact G.
Qed.

Lemma closed_rel s R d : closed s R d -> forall x y, x < n -> (rel s R x y <-> CT x y).
Proof.
  intros (I & G) x y Hx. split; [apply (i_sound _ _ _ I); exact Hx|]. intros H. revert Hx. induction H as [x y H|x y z H1 IH1 H2 IH2]; intros Hx.
  - apply (i_base _ _ _ I). exact H.
  - specialize (IH1 Hx). assert (Hy : y < n).
    { clear -H1 E_lt. induction H1; auto. apply E_lt in H. tauto. }
    specialize (IH2 Hy). destruct (f_R _ _ _ _ (i_forest _ _ _ I) x Hx) as [A B]. assert (RR := root_idem s R d x I Hx).
    destruct (G (R x) y A RR) as [C _]; [eapply rel_same; [|exact IH1]; congruence|].
    eapply rel_same; [exact RR|]. apply C. exact IH2.
Qed.
Lemma closed_mutual s R d : closed s R d -> forall x y, x < n -> y < n -> CT x y -> CT y x -> R x = R y.
Proof.
  intros C x y Hx Hy A B. assert (I := proj1 C). destruct (f_R _ _ _ _ (i_forest _ _ _ I) x Hx) as [P Q]. assert (RR := root_idem s R d x I Hx).
  destruct (proj2 C (R x) y P RR) as [_ [D|D]].
  - eapply rel_same; [symmetry; exact RR|]. apply (closed_rel s R d C); auto.
  - congruence.
  - destruct D. apply (closed_rel s R d C); [exact Hy|]. destruct (Nat.eq_dec (R x) x) as [->|N]; [exact B|].
    eapply t_trans; [exact B|]. apply (i_eqv _ _ _ I x Hx N).
Qed.
Lemma relates_rel s R d : inv s R d -> forall x y, exists r, relates s x y = Some r /\ (r = true <-> x < n /\ rel s R x y).
Proof.
  intros I x y. assert (Sz : size s = n) by (apply (f_len _ _ _ _ (i_forest _ _ _ I))). unfold relates, root. rewrite Sz.
  destruct (Nat.ltb_spec x n) as [Hx|Hx]; [|exists false; split; [reflexivity|]; split; [discriminate|lia]].
  rewrite (root_ok n (refs s) R d x (i_forest _ _ _ I) Hx). destruct (f_R _ _ _ _ (i_forest _ _ _ I) x Hx) as [P Q].
  destruct (get_some (outs s) (R x)) as [b Gb]; [rewrite (i_len _ _ _ I); exact P|]. rewrite Gb. eexists. split; [reflexivity|].
  rewrite (rel_mem s R x y b Gb). tauto.
Qed.
End Closure.
