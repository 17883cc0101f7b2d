(** Proofs about hash tables. *)

From Coq Require Import List Arith NArith Bool Lia.
From Verif Require Import VecModel VecProofs HashModel HashSpec.
Import ListNotations.
Open Scope nat_scope.
Open Scope vec_scope.

Lemma next_pos m h j : 0 < m -> next m ((h + j) mod m) = (h + S j) mod m.
Proof.
  intros H. pose proof (Nat.mod_upper_bound (h + j) m ltac:(lia)) as B.
  assert (A : (h + S j) mod m = ((h + j) mod m + 1) mod m).
  { rewrite Nat.add_mod_idemp_l by lia. f_equal. lia. }
  rewrite A. unfold next. destruct (Nat.eqb_spec (S ((h + j) mod m)) m) as [E|E].
  - replace ((h + j) mod m + 1) with m by lia. symmetry. apply Nat.mod_same. lia.
  - rewrite (Nat.mod_small ((h + j) mod m + 1)) by lia. lia.
Qed.
Lemma pos_reach m h0 h : h0 < m -> h < m -> exists k, k < m /\ (h0 + k) mod m = h.
Proof.
  intros H0 H. destruct (Nat.le_gt_cases h0 h) as [L|L].
  - exists (h - h0). split; [lia|]. replace (h0 + (h - h0)) with h by lia. apply Nat.mod_small. exact H.
  - exists (h + m - h0). split; [lia|]. replace (h0 + (h + m - h0)) with (h + 1 * m) by lia.
    rewrite Nat.mod_add by lia. apply Nat.mod_small. exact H.
Qed.
Lemma least (P : nat -> Prop) n : (forall k, {P k} + {~ P k}) -> P n -> exists k, k <= n /\ P k /\ forall j, j < k -> ~ P j.
Proof.
  intros D. induction n as [n IH] using lt_wf_ind. intros Hn.
  assert (A : (exists j, j < n /\ P j) \/ forall j, j < n -> ~ P j).
  { clear IH Hn. induction n as [|n IHn]; [right; intros; lia|]. destruct IHn as [(j & Hj & Pj)|N].
    - left. exists j. split; [lia|exact Pj].
    - destruct (D n) as [Pn|Pn]; [left; exists n; split; [lia|exact Pn]|]. right. intros j Hj.
      destruct (Nat.eq_dec j n) as [->|]; [exact Pn|]. apply N. lia. }
  destruct A as [(j & Hj & Pj)|N].
  - destruct (IH j Hj Pj) as (k & Hk & R). exists k. split; [lia|exact R].
  - exists n. auto.
Qed.

Lemma pow2_gt n : n + 1 <= 2 ^ n.
Proof. induction n as [|n IH]; cbn [Nat.pow]; lia. Qed.

Section Proofs.
Variable E : Type.
Variable differs : E -> E -> bool.
Variable hash : E -> nat -> nat.
Variable w : N.
Let emp := empty w.

(** slots hold the numbers below n of entries of the pool, each reachable from its hash code *)
Record holds (m : nat) (pool : list E) (n : nat) (slots : list N) : Prop := {
  hs_len : length slots = m;
  hs_val : forall h v, get slots h = Some v -> v <> emp -> exists i, i < n /\ v = N.of_nat i;
  hs_inj : forall h h' v, get slots h = Some v -> get slots h' = Some v -> v <> emp -> h = h';
  hs_reach : forall i e, i < n -> get pool i = Some e ->
    exists k, get slots ((hash e m + k) mod m) = Some (N.of_nat i) /\
      forall j, j < k -> get slots ((hash e m + j) mod m) <> Some emp }.

Lemma some_empty m pool n slots : holds m pool n slots -> n < m -> exists h, h < m /\ get slots h = Some emp.
Proof.
  intros H Hn. destruct (In_dec N.eq_dec emp slots) as [I|I].
  - apply In_nth_error in I. destruct I as [h Eh]. exists h. split; [|exact Eh]. rewrite <- (hs_len _ _ _ _ H). eapply get_lt. exact Eh.
  - exfalso. assert (L : length slots <= length (map N.of_nat (seq 0 n))).
    { apply NoDup_incl_length.
      - apply NoDup_nth_error. intros i j Hi Eij. destruct (get_some slots i Hi) as [v Ev].
        eapply (hs_inj _ _ _ _ H); [exact Ev| |].
        + unfold get in *. congruence.
        + intros ->. apply I. eapply nth_error_In. exact Ev.
      - intros v Iv. apply In_nth_error in Iv as [h Eh]. destruct (hs_val _ _ _ _ H h v Eh) as (i & Hi & ->).
        + intros ->. apply I. eapply nth_error_In. exact Eh.
        + apply in_map, in_seq. lia. }
    rewrite map_length, seq_length, (hs_len _ _ _ _ H) in L. lia.
Qed.
(** the first empty slot from h0 on *)
Lemma first_empty m pool n slots h0 : holds m pool n slots -> n < m -> h0 < m ->
  exists k, k < m /\ get slots ((h0 + k) mod m) = Some emp /\
    forall j, j < k -> get slots ((h0 + j) mod m) <> Some emp.
Proof.
  intros H Hn H0. destruct (some_empty _ _ _ _ H Hn) as (h & Hh & Eh). destruct (pos_reach m h0 h H0 Hh) as (k & Hk & Ek).
  destruct (least (fun k => get slots ((h0 + k) mod m) = Some emp) k) as (k' & L & P & Q).
  - intros j. destruct (get slots ((h0 + j) mod m)) as [v|]; [|right; discriminate].
    destruct (N.eq_dec v emp) as [->|D]; [left; reflexivity|right; congruence].
  - rewrite Ek. exact Eh.
  - exists k'. split; [lia|]. auto.
Qed.
Lemma slot_some m pool n slots h : holds m pool n slots -> 0 < m -> exists v, get slots (h mod m) = Some v.
Proof. intros H Hm. apply get_some. rewrite (hs_len _ _ _ _ H). apply Nat.mod_upper_bound. lia. Qed.

Lemma free_slot_run m pool n slots h0 k : holds m pool n slots -> 0 < m ->
  get slots ((h0 + k) mod m) = Some emp -> (forall j, j < k -> get slots ((h0 + j) mod m) <> Some emp) ->
  forall fuel j, j <= k -> k - j <= fuel -> free_slot w fuel m slots ((h0 + j) mod m) = Some ((h0 + k) mod m).
Proof.
  intros H Hm Ek Lk. induction fuel as [|f IH]; intros j Hj Hf.
  - assert (j = k) as -> by lia. cbn [free_slot]. rewrite Ek. unfold emp. rewrite N.eqb_refl. reflexivity.
  - cbn [free_slot]. destruct (Nat.eq_dec j k) as [->|D]; [rewrite Ek; unfold emp; rewrite N.eqb_refl; reflexivity|].
    destruct (slot_some _ _ _ _ (h0 + j) H Hm) as [v Ev]. rewrite Ev. specialize (Lk j ltac:(lia)). rewrite Ev in Lk.
    destruct (N.eqb_spec v (empty w)) as [->|Dv]; [contradiction|]. rewrite next_pos by exact Hm. apply IH; lia.
Qed.
Lemma free_slot_ok m pool n slots h0 : holds m pool n slots -> n < m -> h0 < m ->
  exists k, free_slot w m m slots h0 = Some ((h0 + k) mod m) /\ k < m /\ get slots ((h0 + k) mod m) = Some emp /\
    forall j, j < k -> get slots ((h0 + j) mod m) <> Some emp.
Proof.
  intros H Hn H0. destruct (first_empty _ _ _ _ h0 H Hn H0) as (k & Hk & Ek & Lk). exists k.
  split; [|auto]. pose proof (free_slot_run _ _ _ _ h0 k H ltac:(lia) Ek Lk m 0 ltac:(lia) ltac:(lia)) as R.
  rewrite Nat.add_0_r, Nat.mod_small in R by exact H0. exact R.
Qed.
(** filling the first empty slot *)
Lemma holds_put m pool n slots e k : holds m pool n slots -> n < m -> (N.of_nat n < emp)%N -> get pool n = Some e ->
  get slots ((hash e m + k) mod m) = Some emp -> (forall j, j < k -> get slots ((hash e m + j) mod m) <> Some emp) ->
  exists slots', put slots ((hash e m + k) mod m) (N.of_nat n) = Some slots' /\
    get slots' ((hash e m + k) mod m) = Some (N.of_nat n) /\ holds m pool (S n) slots'.
Proof.
  intros H Hn Hw He Ek Lk. set (p := (hash e m + k) mod m) in *. pose proof (get_lt _ _ _ Ek) as Lp.
  destruct (put_spec slots p (N.of_nat n) Lp) as (s & Es & Ls & Gs). exists s. split; [exact Es|].
  assert (Gp : get s p = Some (N.of_nat n)) by (rewrite Gs, Nat.eqb_refl; reflexivity). split; [exact Gp|]. 
  assert (Keep : forall h, get slots h <> Some emp -> get s h <> Some emp).
  { intros h A. rewrite Gs. destruct (Nat.eqb_spec h p) as [->|]; [contradiction|exact A]. }
  constructor.
  - rewrite Ls. apply H.
  - intros h v G D. rewrite Gs in G. destruct (Nat.eqb_spec h p) as [->|].
    + exists n. split; [lia|congruence].
    + destruct (hs_val _ _ _ _ H h v G D) as (i & Hi & ->). exists i. split; [lia|reflexivity].
  - intros h h' v G G' D. rewrite Gs in G, G'. destruct (Nat.eqb_spec h p) as [->|N1], (Nat.eqb_spec h' p) as [->|N2].
    + reflexivity.
    + exfalso. destruct (hs_val _ _ _ _ H h' v G' D) as (i & Hi & ->). injection G as G. lia.
    + exfalso. destruct (hs_val _ _ _ _ H h v G D) as (i & Hi & ->). injection G' as G'. lia.
    + eapply (hs_inj _ _ _ _ H); eassumption.
  - intros i e' Hi Gi. destruct (Nat.eq_dec i n) as [->|D].
    + assert (e' = e) as -> by congruence. exists k. fold p. split; [exact Gp|]. intros j Hj. apply Keep, Lk. exact Hj.
    + destruct (hs_reach _ _ _ _ H i e' ltac:(lia) Gi) as (k' & G' & L'). exists k'. split.
      * rewrite Gs. destruct (Nat.eqb_spec ((hash e' m + k') mod m) p) as [Q|Q]; [|exact G'].
        rewrite Q in G'. exfalso. assert (N.of_nat i = emp) by congruence. lia.
      * intros j Hj. apply Keep, L'. exact Hj.
Qed.
Lemma holds_none m pool : holds m pool 0 (repeat emp m).
Proof.
  assert (G : forall h v, get (repeat emp m) h = Some v -> v = emp).
  { intros h v Gv. apply nth_error_In, repeat_spec in Gv. exact Gv. }
  constructor.
  - apply repeat_length.
  - intros h v Gv D. apply G in Gv. contradiction.
  - intros h h' v Gv _ D. apply G in Gv. contradiction.
  - intros; lia.
Qed.
Lemma holds_pool m pool pool' n slots : holds m pool n slots -> (forall i, i < n -> get pool' i = get pool i) -> holds m pool' n slots.
Proof.
  intros H A. constructor; try apply H. intros i e Hi G. rewrite A in G by exact Hi. exact (hs_reach _ _ _ _ H i e Hi G).
Qed.
Lemma number_small i : (N.of_nat i <= emp)%N -> number w i = N.of_nat i.
Proof.
  intros H. unfold number. apply N.mod_small. unfold emp, empty in H. assert (2 ^ w <> 0)%N by (apply N.pow_nonzero; lia). lia.
Qed.

Hypothesis hash_range : forall x m, 0 < m -> hash x m < m.
Lemma rehash_ok m pool : length pool < m -> (N.of_nat (length pool) <= emp)%N ->
  exists slots, rehash E hash w m pool = Some slots /\ holds m pool (length pool) slots.
Proof.
  intros Hm Hw. unfold rehash.
  match goal with |- exists _, for_up ?n 0 ?b ?s0 = _ /\ _ => destruct (for_up_rule (fun i s => holds m pool i s) n 0 b s0) as (r & Er & Hr) end.
  - apply holds_none.
  - intros i s Hi H. destruct (get_some pool i ltac:(lia)) as [e Ee]. rewrite Ee.
    destruct (free_slot_ok m pool i s (hash e m) H ltac:(lia) (hash_range e m ltac:(lia))) as (k & Ef & Hk & Ek & Lk). rewrite Ef.
    rewrite number_small by lia. destruct (holds_put m pool i s e k H ltac:(lia) ltac:(lia) Ee Ek Lk) as (s' & Es & _ & H').
    exists s'. auto.
  - exists r. split; [exact Er|exact Hr].
Qed.

(** a table in working order *)
Definition good (t : table E) : Prop :=
  length (d_pool t) < d_mod t /\ (N.of_nat (length (d_pool t)) <= emp)%N /\ NoDup (d_pool t) /\
  holds (d_mod t) (d_pool t) (length (d_pool t)) (d_hash t).

Lemma max_fill_lt m : 0 < m -> max_fill m < m.
Proof.
  intros H. unfold max_fill. assert (13421773 * N.of_nat m / 2 ^ 24 < N.of_nat m)%N; [|lia].
  apply N.div_lt_upper_bound; [discriminate|]. change (2 ^ 24)%N with 16777216%N. lia.
Qed.
Lemma max_fill_ge m : 2 * m <= 3 * max_fill m + 2.
Proof.
  unfold max_fill. set (q := (13421773 * N.of_nat m / 2 ^ 24)%N).
  assert (13421773 * N.of_nat m < 2 ^ 24 * (q + 1))%N.
  { pose proof (N.mul_succ_div_gt (13421773 * N.of_nat m) (2 ^ 24) ltac:(discriminate)). fold q in H. lia. }
  change (2 ^ 24)%N with 16777216%N in H. lia.
Qed.
Lemma expand_ok size : forall fuel m, 0 < m -> 3 * size + 3 <= 4 * (m * 2 ^ fuel) ->
  exists m', expand (S fuel) m size = Some m' /\ size < max_fill m' /\ m <= m'.
Proof.
  induction fuel as [|f IH]; intros m Hm Hf.
  - cbn [expand]. destruct (Nat.leb_spec (max_fill m) size) as [L|L].
    + destruct (Nat.leb_spec (max_fill (m * 2)) size) as [L'|L'].
      * exfalso. pose proof (max_fill_ge (m * 2)). cbn [Nat.pow] in Hf. lia.
      * exists (m * 2). split; [reflexivity|]. split; [exact L'|lia].
    + exists m. auto.
  - cbn [expand]. destruct (Nat.leb_spec (max_fill m) size) as [L|L].
    + destruct (IH (m * 2)) as (m' & E' & A & B); [lia|cbn [Nat.pow] in Hf; nia|].
      exists m'. split; [|split; [exact A|lia]]. exact E'.
    + exists m. auto.
Qed.
Lemma reconstruct_ok m pool : 0 < m -> NoDup pool -> (N.of_nat (length pool) <= emp)%N ->
  exists t, reconstruct E hash w m pool = Some t /\ d_pool t = pool /\ good t.
Proof.
  intros Hm ND Hw. unfold reconstruct.
  destruct (expand_ok (length pool) (length pool) m) as (m' & Em & A & B); [lia|pose proof (pow2_gt (length pool)); nia|].
  rewrite Em. assert (H : 0 < m') by lia. pose proof (max_fill_lt m' H).
  destruct (rehash_ok m' pool) as (s & Es & Hs); [lia|exact Hw|]. rewrite Es. eexists. split; [reflexivity|]. split; [reflexivity|].
  unfold good. cbn [d_mod d_pool d_hash]. split; [lia|]. auto.
Qed.

Hypothesis differs_ok : forall x y, differs x y = false <-> x = y.
Lemma differs_true x y : differs x y = true <-> x <> y.
Proof. rewrite <- differs_ok. destruct (differs x y); split; congruence. Qed.

(** the search ends at the first slot that is empty or holds x *)
Lemma probe_run t x k v : good t ->
  get (d_hash t) ((hash x (d_mod t) + k) mod d_mod t) = Some v ->
  (v = emp \/ get (d_pool t) (N.to_nat v) = Some x) ->
  (forall j, j < k -> exists u y, get (d_hash t) ((hash x (d_mod t) + j) mod d_mod t) = Some u /\ u <> emp /\
                        get (d_pool t) (N.to_nat u) = Some y /\ x <> y) ->
  k < d_mod t ->
  probe E differs w (d_mod t) t x (hash x (d_mod t)) = Some ((hash x (d_mod t) + k) mod d_mod t, v).
Proof.
  intros G Ev Stop Go Hk. set (m := d_mod t) in *. set (h0 := hash x m) in *.
  assert (Hm : 0 < m) by lia.
  cut (forall fuel j, j <= k -> k - j <= fuel -> probe E differs w fuel t x ((h0 + j) mod m) = Some ((h0 + k) mod m, v)).
  { intros A. specialize (A m 0 ltac:(lia) ltac:(lia)). rewrite Nat.add_0_r, Nat.mod_small in A by (apply hash_range; exact Hm). exact A. }
  assert (Last : forall fuel, probe E differs w fuel t x ((h0 + k) mod m) = Some ((h0 + k) mod m, v)).
  { intros fuel. destruct fuel as [|f]; cbn [probe]; rewrite Ev; (destruct (N.eqb_spec v (empty w)) as [->|D]; [reflexivity|]);
      (destruct Stop as [S|S]; [contradiction|]); rewrite S, (proj2 (differs_ok x x) eq_refl); reflexivity. }
  induction fuel as [|f IH]; intros j Hj Hf.
  - assert (j = k) as -> by lia. apply Last.
  - destruct (Nat.eq_dec j k) as [->|D]; [apply Last|]. cbn [probe]. destruct (Go j ltac:(lia)) as (u & y & Eu & Du & Ey & Dy).
    rewrite Eu. destruct (N.eqb_spec u (empty w)) as [Q|Q]; [contradiction|]. rewrite Ey, (proj2 (differs_true x y) Dy).
    fold m. rewrite next_pos by exact Hm. apply IH; lia.
Qed.
Lemma slot_entry t h v : good t -> get (d_hash t) h = Some v -> v <> emp ->
  exists i y, v = N.of_nat i /\ i < length (d_pool t) /\ get (d_pool t) (N.to_nat v) = Some y.
Proof.
  intros (_ & _ & _ & H) Ev D. destruct (hs_val _ _ _ _ H h v Ev D) as (i & Hi & ->). destruct (get_some (d_pool t) i Hi) as [y Ey].
  exists i, y. rewrite Nnat.Nat2N.id. auto.
Qed.
Lemma probe_present t x i : good t -> get (d_pool t) i = Some x ->
  exists h, probe E differs w (d_mod t) t x (hash x (d_mod t)) = Some (h, N.of_nat i).
Proof.
  intros G Ei. pose proof G as (Hm & Hw & ND & H). pose proof (get_lt _ _ _ Ei) as Li.
  assert (M : 0 < d_mod t) by lia.
  destruct (hs_reach _ _ _ _ H i x Li Ei) as (k & Ek & Lk).
  assert (Hk : exists k', k' < d_mod t /\ (hash x (d_mod t) + k') mod d_mod t = (hash x (d_mod t) + k) mod d_mod t /\ k' <= k).
  { exists (k mod d_mod t). split; [apply Nat.mod_upper_bound; lia|]. split; [apply Nat.add_mod_idemp_r; lia|apply Nat.mod_le; lia]. }
  destruct Hk as (k' & Hk' & Pk' & Lk'). exists ((hash x (d_mod t) + k') mod d_mod t). apply probe_run; auto.
  - rewrite Pk'. exact Ek.
  - right. rewrite Nnat.Nat2N.id. exact Ei.
  - intros j Hj. destruct (slot_some _ _ _ _ (hash x (d_mod t) + j) H M) as [u Eu].
    assert (Du : u <> emp) by (intros ->; exact (Lk j ltac:(lia) Eu)).
    destruct (slot_entry t _ u G Eu Du) as (i' & y & -> & Hi' & Ey). exists (N.of_nat i'), y. repeat split; auto.
    intros <-. rewrite Nnat.Nat2N.id in Ey.
    assert (i' = i) as ->. { apply (proj1 (NoDup_nth_error _) ND); [exact Hi'|]. unfold get in *. congruence. }
    assert (Q : (hash x (d_mod t) + j) mod d_mod t = (hash x (d_mod t) + k') mod d_mod t).
    { eapply (hs_inj _ _ _ _ H); [exact Eu|rewrite Pk'; exact Ek|exact Du]. }
    clear -Q Hj Hk' M. set (a := hash x (d_mod t)) in *. set (m := d_mod t) in *.
    assert (m * ((a + j) / m) + (a + j) mod m = a + j) by (symmetry; apply Nat.div_mod; lia).
    assert (m * ((a + k') / m) + (a + k') mod m = a + k') by (symmetry; apply Nat.div_mod; lia).
    assert (m * ((a + k') / m) = m * ((a + j) / m) + (k' - j)) by lia.
    assert ((a + k') / m <= (a + j) / m \/ (a + j) / m + 1 <= (a + k') / m) as [C|C] by lia; nia.
Qed.
Lemma probe_absent t x : good t -> ~ In x (d_pool t) ->
  exists k, probe E differs w (d_mod t) t x (hash x (d_mod t)) = Some ((hash x (d_mod t) + k) mod d_mod t, emp) /\
    get (d_hash t) ((hash x (d_mod t) + k) mod d_mod t) = Some emp /\
    forall j, j < k -> get (d_hash t) ((hash x (d_mod t) + j) mod d_mod t) <> Some emp.
Proof.
  intros G NI. pose proof G as (Hm & Hw & ND & H). assert (M : 0 < d_mod t) by lia.
  destruct (first_empty _ _ _ _ (hash x (d_mod t)) H Hm (hash_range x _ M)) as (k & Hk & Ek & Lk). exists k.
  split; [|auto]. apply probe_run; auto. intros j Hj. destruct (slot_some _ _ _ _ (hash x (d_mod t) + j) H M) as [u Eu].
  assert (Du : u <> emp) by (intros ->; exact (Lk j Hj Eu)).
  destruct (slot_entry t _ u G Eu Du) as (i & y & -> & Hi & Ey). exists (N.of_nat i), y. repeat split; auto.
  intros <-. apply NI. eapply nth_error_In. exact Ey.
Qed.

Lemma find_present t x i : good t -> get (d_pool t) i = Some x -> find E differs hash w t x = Some (N.of_nat i).
Proof. intros G Ei. unfold find. destruct (probe_present t x i G Ei) as [h ->]. reflexivity. Qed.
Lemma find_absent t x : good t -> ~ In x (d_pool t) -> find E differs hash w t x = Some emp.
Proof. intros G NI. unfold find. destruct (probe_absent t x G NI) as (k & -> & _). reflexivity. Qed.

Lemma match_present t x i : good t -> get (d_pool t) i = Some x -> match_ E differs hash w t x = Some (t, Number (N.of_nat i)).
Proof.
  intros G Ei. unfold match_. destruct (probe_present t x i G Ei) as [h ->].
  destruct G as (_ & Hw & _). pose proof (get_lt _ _ _ Ei). destruct (N.eqb_spec (N.of_nat i) (empty w)) as [Q|Q]; [|reflexivity].
  fold emp in Q. lia.
Qed.
Lemma NoDup_snoc (l : list E) x : NoDup l -> ~ In x l -> NoDup (l ++ [x]).
Proof. intros ND NI. apply (NoDup_Add (a := x) (l := l)); [|auto]. rewrite <- (app_nil_r l) at 1. apply Add_app. Qed.

(** what match does with a new entry, as long as the number type is not exhausted *)
Lemma match_absent_gen t x : good t -> ~ In x (d_pool t) ->
  exists m slots h, match_ E differs hash w t x =
      (do s <- put slots h (N.of_nat (length (d_pool t)));
       do r <- get s h; Some (mk m s (d_pool t ++ [x]), Number r)) /\
    length (d_pool t) + 1 < m /\ holds m (d_pool t) (length (d_pool t)) slots /\
    exists k, h = (hash x m + k) mod m /\ get slots h = Some emp /\
      forall j, j < k -> get slots ((hash x m + j) mod m) <> Some emp.
Proof.
  intros G NI. unfold match_. destruct (probe_absent t x G NI) as (k & -> & Ek & Lk). unfold emp. rewrite N.eqb_refl. cbn [negb].
  pose proof G as (Hm & Hw & ND & H). rewrite (number_small _ Hw), N.eqb_refl. cbn [negb].
  destruct (Nat.leb_spec (max_fill (d_mod t)) (length (d_pool t))) as [L|L].
  - destruct (rehash_ok (d_mod t * 2) (d_pool t)) as (s & Es & Hs); [lia|exact Hw|]. rewrite Es.
    destruct (free_slot_ok _ _ _ _ (hash x (d_mod t * 2)) Hs) as (k' & Ef & Hk' & Ek' & Lk'); [lia|apply hash_range; lia|].
    rewrite Ef. exists (d_mod t * 2), s, ((hash x (d_mod t * 2) + k') mod (d_mod t * 2)). split; [reflexivity|]. split; [lia|]. split; [exact Hs|].
    exists k'. auto.
  - assert (M : 0 < d_mod t) by lia. pose proof (max_fill_lt _ M).
    exists (d_mod t), (d_hash t), ((hash x (d_mod t) + k) mod d_mod t). split; [reflexivity|]. split; [lia|]. split; [exact H|].
    exists k. auto.
Qed.
Lemma match_absent t x : good t -> ~ In x (d_pool t) -> (N.of_nat (length (d_pool t)) < emp)%N ->
  exists t', match_ E differs hash w t x = Some (t', Number (N.of_nat (length (d_pool t)))) /\
    d_pool t' = d_pool t ++ [x] /\ good t'.
Proof.
  intros G NI Hw. destruct (match_absent_gen t x G NI) as (m & s & h & -> & Hm & H & k & -> & Ek & Lk).
  set (n := length (d_pool t)) in *.
  assert (H' : holds m (d_pool t ++ [x]) n s).
  { apply (holds_pool m (d_pool t)); [exact H|]. intros i Hi. unfold get. apply nth_error_app1. exact Hi. }
  assert (Gx : get (d_pool t ++ [x]) n = Some x).
  { unfold get, n. rewrite nth_error_app2, Nat.sub_diag by lia. reflexivity. }
  destruct (holds_put m (d_pool t ++ [x]) n s x k H' ltac:(lia) Hw Gx Ek Lk) as (s' & -> & -> & H'').
  eexists. split; [reflexivity|]. split; [reflexivity|]. unfold good. cbn [d_pool d_mod d_hash]. rewrite app_length. cbn [length]. fold n.
  replace (n + 1) with (S n) by lia. split; [lia|]. split; [lia|]. split; [|exact H'']. apply NoDup_snoc; [apply G|exact NI].
Qed.
(** with the last number, the value returned is the one reserved for "empty" *)
Lemma match_exhausted t x : good t -> ~ In x (d_pool t) -> N.of_nat (length (d_pool t)) = emp ->
  exists t', match_ E differs hash w t x = Some (t', Number emp) /\ d_pool t' = d_pool t ++ [x] /\
    find E differs hash w t' x = Some emp.
Proof.
  intros G NI Hw. destruct (match_absent_gen t x G NI) as (m & s & h & -> & Hm & H & k & -> & Ek & Lk).
  set (n := length (d_pool t)) in *. rewrite Hw. rewrite (put_same _ _ _ Ek), Ek.
  eexists. split; [reflexivity|]. split; [reflexivity|].
  unfold find. cbn [d_mod d_hash].
  assert (M : 0 < m) by lia. destruct (first_empty _ _ _ _ (hash x m) H ltac:(lia) (hash_range x m M)) as (k' & Hk' & Ek' & Lk').
  assert (A : forall fuel j, j <= k' -> k' - j <= fuel ->
    probe E differs w fuel (mk m s (d_pool t ++ [x])) x ((hash x m + j) mod m) = Some ((hash x m + k') mod m, emp)).
  { assert (Last : forall fuel, probe E differs w fuel (mk m s (d_pool t ++ [x])) x ((hash x m + k') mod m) = Some ((hash x m + k') mod m, emp)).
    { intros [|f]; cbn [probe d_hash]; rewrite Ek'; unfold emp; rewrite N.eqb_refl; reflexivity. }
    induction fuel as [|f IH]; intros j Hj Hf; [assert (j = k') as -> by lia; apply Last|].
    destruct (Nat.eq_dec j k') as [->|D]; [apply Last|]. cbn [probe d_hash].
    destruct (slot_some _ _ _ _ (hash x m + j) H M) as [u Eu]. rewrite Eu.
    assert (Du : u <> emp) by (intros ->; exact (Lk' j ltac:(lia) Eu)).
    destruct (N.eqb_spec u (empty w)) as [Q|Q]; [contradiction|]. cbn [d_pool d_mod].
    destruct (hs_val _ _ _ _ H _ _ Eu Du) as (i & Hi & ->). rewrite Nnat.Nat2N.id. unfold get. rewrite nth_error_app1 by exact Hi.
    destruct (nth_error (d_pool t) i) as [y|] eqn:Ey; [|apply nth_error_None in Ey; unfold n in Hi; lia].
    assert (Dy : x <> y) by (intros <-; apply NI; eapply nth_error_In; exact Ey).
    rewrite (proj2 (differs_true x y) Dy), next_pos by exact M. apply IH; lia. }
  specialize (A m 0 ltac:(lia) ltac:(lia)). rewrite Nat.add_0_r, Nat.mod_small in A by (apply hash_range; exact M). rewrite A. reflexivity.
Qed.

(** Any series of matches *)
Lemma numbering_total old xs : NoDup old -> (forall x y : E, {x = y} + {x <> y}) -> exists seen ns, numbering E old xs seen ns.
Proof.
  intros _ D. revert old. induction xs as [|x xs IH]; intros old; [exists old, []; constructor|].
  destruct (In_dec D x old) as [I|I].
  - apply In_nth_error in I as [i Ei]. destruct (IH old) as (seen & ns & N). exists seen, (i :: ns). constructor; assumption.
  - destruct (IH (old ++ [x])) as (seen & ns & N). exists seen, (length old :: ns). constructor; assumption.
Qed.
Lemma numbering_prefix old xs seen ns : numbering E old xs seen ns -> exists l, seen = old ++ l.
Proof.
  induction 1 as [old|old x i xs seen ns _ _ [l ->]|old x xs seen ns _ _ [l ->]].
  - exists []. symmetry. apply app_nil_r.
  - exists l. reflexivity.
  - exists (x :: l). rewrite <- app_assoc. reflexivity.
Qed.
Lemma match_all_ok t xs seen ns : good t -> numbering E (d_pool t) xs seen ns -> (N.of_nat (length seen) <= emp)%N ->
  exists t', match_all E differs hash w t xs = Some (t', map (fun i => Number (N.of_nat i)) ns) /\ d_pool t' = seen /\ good t'.
Proof.
  intros G N. remember (d_pool t) as old eqn:Eo. revert t G Eo. induction N as [old|old x i xs seen ns Hi _ IH|old x xs seen ns Hn N IH]; intros t G -> Hw.
  - exists t. auto.
  - cbn [match_all]. rewrite (match_present t x i G Hi). destruct (IH t G eq_refl Hw) as (t' & -> & R). exists t'. split; [reflexivity|exact R].
  - cbn [match_all]. destruct (numbering_prefix _ _ _ _ N) as [l El]. subst seen. rewrite !app_length in Hw. cbn [length] in Hw.
    destruct (match_absent t x G Hn) as (t1 & E1 & P1 & G1); [lia|]. rewrite E1.
    destruct (IH t1 G1 (eq_sym P1)) as (t' & -> & R); [rewrite !app_length; cbn [length]; lia|]. exists t'. split; [reflexivity|exact R].
Qed.
End Proofs.
