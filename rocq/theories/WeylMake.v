(** Weyl groups: the constructor establishes the invariant *)

From Coq Require Import List Arith ZArith Lia Bool Ascii Permutation.
From Verif Require Import VecModel VecProofs RunModel RunProofs WeylModel WeylSpec WeylTable WeylCheck WeylExchange WeylGroup WeylOps.
Import ListNotations.
Open Scope nat_scope.

Notation rk c := (length (c_position c)).
Definition place (c : component) (i : nat) : nat := if is_letter ["B"; "C"; "D"]%char (c_type c) then rk c - 1 - i else i.
Definition total (l : list component) : nat := length (concat (map c_position l)).

Lemma simple_in type r : simple_type type r -> r <= rank_max -> exists k, In (type, k) all_types /\ r <= k /\ 0 < r.
Proof.
  unfold simple_type, rank_max, all_types. intros H L.
  destruct type as [[] [] [] [] [] [] [] []]; try contradiction;
  first [ exists 32; split; [cbn; tauto|lia] | exists 8; split; [cbn; tauto|lia] | exists 4; split; [cbn; tauto|lia] | exists 2; split; [cbn; tauto|lia] ].
Qed.
Lemma cartan_inner type r i j : simple_type type r -> i < r -> j < r ->
  cartan type r (if is_letter ["B"; "C"; "D"]%char type then r - 1 - i else i) (if is_letter ["B"; "C"; "D"]%char type then r - 1 - j else j) = inner_cartan type i j.
Proof.
  intros H Hi Hj. unfold cartan, inner_cartan.
  assert (E1 : (r - 1 - i =? r - 1 - j) = (i =? j)) by (apply eq_true_iff_eq; rewrite !Nat.eqb_eq; lia).
  assert (E2 : next_to (r - 1 - i) (r - 1 - j) = next_to i j) by (unfold next_to; apply eq_true_iff_eq; rewrite !orb_true_iff, !Nat.eqb_eq; lia).
  assert (E3 : forall k, k < r -> (S (r - 1 - k) =? r) = (k =? 0)) by (intros k Hk; apply eq_true_iff_eq; rewrite !Nat.eqb_eq; lia).
  assert (E4 : forall k, k < r -> (S (r - 1 - k) <? r) = (0 <? k)) by (intros k Hk; apply eq_true_iff_eq; rewrite !Nat.ltb_lt; lia).
  assert (E5 : 4 <= r -> edge [(r - 3, r - 1)] (r - 1 - i) (r - 1 - j) = edge [(0, 2)] i j).
  { intros Hr. unfold edge. cbn [existsb]. apply eq_true_iff_eq. rewrite !orb_true_iff, !andb_true_iff, !Nat.eqb_eq. lia. }
  destruct type as [[] [] [] [] [] [] [] []]; try contradiction; cbn [is_letter existsb Ascii.eqb Bool.eqb orb]; try reflexivity;
    cbn in H; rewrite E1, ?E2, ?(E3 i Hi), ?(E3 j Hj), ?(E4 i Hi), ?(E4 j Hj), ?E5 by exact H; reflexivity.
Qed.

(** *** places of components *)
Lemma total_app l l' : total (l ++ l') = total l + total l'.
Proof. unfold total. now rewrite map_app, concat_app, app_length. Qed.
Lemma total_cons c l : total (c :: l) = rk c + total l.
Proof. unfold total. cbn. now rewrite app_length. Qed.
Lemma consecutive_app a pre post : consecutive c_offset c_position a (pre ++ post) <->
  consecutive c_offset c_position a pre /\ consecutive c_offset c_position (a + total pre) post.
Proof.
  revert a. induction pre as [|c pre IH]; intros a; cbn [app].
  - cbn. rewrite Nat.add_0_r. tauto.
  - rewrite total_cons. cbn [consecutive]. fold (consecutive c_offset c_position). rewrite IH. rewrite <- Nat.add_assoc. tauto.
Qed.
Lemma next_to_sym i j : next_to i j = next_to j i.
Proof. unfold next_to. apply orb_comm. Qed.
Lemma edge_sym l i j : edge l i j = edge l j i.
Proof.
  unfold edge. induction l as [|[a b] l IH]; [auto|]. cbn [existsb]. rewrite IH. f_equal. apply orb_comm.
Qed.
Lemma inner_cartan_pair type i j : i <> j -> finite_pair (inner_cartan type i j) (inner_cartan type j i).
Proof.
  intros N. unfold inner_cartan. rewrite (next_to_sym j i), !(edge_sym _ j i). apply Nat.eqb_neq in N. rewrite (Nat.eqb_sym j i), N. apply Nat.eqb_neq in N.
  rewrite <- !andb_assoc, (andb_comm (0 <? j) (0 <? i)). unfold finite_pair.
  assert (Z : finite_pair 0 0) by (left; reflexivity). unfold finite_pair in Z.
  destruct type as [[] [] [] [] [] [] [] []]; try exact Z;
    repeat match goal with
    | |- context [next_to ?a ?b] => destruct (next_to a b)
    | |- context [edge ?l ?a ?b] => destruct (edge l a b)
    | |- context [?a =? ?b] => destruct (Nat.eqb_spec a b); try lia
    | |- context [?a <? ?b] => destruct (Nat.ltb_spec a b); try lia
    end; cbn [andb orb]; try exact Z; cbn; tauto.
Qed.
Lemma inner_cartan_diag type i : inner_cartan type i i = 2%Z.
Proof. unfold inner_cartan. now rewrite Nat.eqb_refl. Qed.
Lemma make_row_ok {X} (d : X) k (f : nat -> res X) (P : nat -> X -> Prop) : (forall i, i < k -> gives (f i) (P i) sure) ->
  gives (make_row k f) (fun l => length l = k /\ forall i, i < k -> P i (nth i l d)) sure.
Proof.
  intros H. unfold make_row. apply (gives_range (fun j l => length l = j /\ forall i, i < j -> P i (nth i l d))); [split; [auto|lia]|].
  intros i l Hi [L1 L2]. apply (gives_run _ _ _ _ (H i ltac:(lia))). intros x Px. cbn [gives]. split; [rewrite app_length; cbn; lia|].
  intros j Hj. destruct (Nat.eq_dec j i) as [->|].
  - rewrite app_nth2 by lia. rewrite L1, Nat.sub_diag. auto.
  - rewrite app_nth1 by lia. apply L2. lia.
Qed.

(** *** commuting generators, from the tables *)
Section Commutes.
Variables (n : nat) (B : nat -> nat -> Z) (off up : nat -> nat) (trs : list transducer) (upper : list nat).
Hypothesis LT : length trs = n.
Hypothesis LU : length upper = n.
Hypothesis TR : forall i, i < n -> tr_offset (nth i trs no_tr) = off i /\ tr_limit (nth i trs no_tr) = S i - off i /\
  good_table (fun a b => coxeter B (off i + a) (off i + b)) (nth i trs no_tr).
Hypothesis UP : forall i, i < n -> nth i upper 0 = up i.
Hypothesis BD : forall i, i < n -> off i <= i <= up i /\ up i < n.
Hypothesis CO : forall i j, i < n -> off i <= j <= up i -> off j = off i /\ up j = up i.
Hypothesis ZE : forall i j, i < n -> j < n -> off i <> off j -> B i j = 0%Z.
Hypothesis CL : Cartan_like n B.
Lemma up_eq i j : i < n -> j < n -> (up i = up j <-> off i = off j).
Proof.
  intros Hi Hj. destruct (BD i Hi) as [A1 A2]. destruct (BD j Hj) as [C1 C2]. split; intros E.
  - destruct (CO i (up i) Hi ltac:(lia)) as [E1 _]. destruct (CO j (up j) Hj ltac:(lia)) as [E2 _]. rewrite E in E1. congruence.
  - destruct (CO i (off i) Hi ltac:(lia)) as [_ E1]. destruct (CO j (off j) Hj ltac:(lia)) as [_ E2]. rewrite E in E1. congruence.
Qed.
Lemma pair_zero i j : i < n -> j < n -> i <> j -> coxeter B i j = 2 -> B i j = 0%Z /\ B j i = 0%Z.
Proof.
  intros Hi Hj N E. destruct CL as [_ F]. specialize (F i j Hi Hj N). unfold coxeter in E. unfold finite_pair in F. cbn in F.
  destruct F as [F|[F|[F|[F|[F|[F|[]]]]]]]; injection F as F1 F2; rewrite <- F1, <- F2 in *; cbn in E; auto; discriminate.
Qed.
Lemma inner_commutes_ok s t : s < t -> t < n -> gives (inner_commutes trs upper s t)
  (fun b => if b : bool then B s t = 0%Z /\ B t s = 0%Z else off s = off t /\ T (nth t trs no_tr) 1 (s - off t) < tr_size (nth t trs no_tr)) sure.
Proof.
  intros L Ht. assert (Hs : s < n) by lia. unfold inner_commutes. rewrite !(vget_at upper _ 0) by lia. cbn [bind]. rewrite !UP by auto.
  destruct (Nat.eqb_spec (up s) (up t)) as [E|E]; cbn [negb].
  - apply up_eq in E; auto. destruct (Nat.ltb_spec t s); [lia|]. rewrite (vget_at trs t no_tr) by lia. cbn [bind].
    destruct (TR t Ht) as (T1 & T2 & T3). rewrite T1. destruct (BD s Hs) as [O1 _]. set (tr := nth t trs no_tr) in *. pose proof (g_size _ _ T3) as SZ.
    rewrite (has_shift_ok _ _ T3) by lia. cbn [bind gives]. destruct (Nat.ltb_spec (T tr 1 (s - off t)) (tr_size tr)) as [X|X]; cbn [negb]; [auto|].
    destruct (g_fixed _ _ T3 1 (s - off t) ltac:(lia) ltac:(lia) X) as (k & b & M & DE & _). destruct (last_ok _ _ T3 1 ltac:(lia)) as [LL LD].
    assert (Z : T tr 1 (last_letter tr 1) = 0) by lia. destruct (g_shift _ _ T3 1 _ ltac:(lia) LL ltac:(lia)) as (_ & D2 & _). rewrite Z in D2.
    assert (LE : last_letter tr 1 = tr_limit tr - 1).
    { destruct (Nat.lt_ge_cases (S (last_letter tr 1)) (tr_limit tr)) as [Y|Y]; [|lia]. rewrite (g_first _ _ T3 _ Y) in D2. lia. }
    assert (KK : k = 1).
    { destruct k as [|[|k]]; [|auto|].
      - exfalso. assert (NE : last_letter tr 1 <> s - off t) by lia. clear DE. unfold coxeter in M. rewrite T2 in LE.
        replace (off t + last_letter tr 1) with t in M by lia. replace (off t + (s - off t)) with s in M by lia.
        destruct CL as [_ F]. specialize (F t s Ht Hs ltac:(lia)). unfold finite_pair in F. cbn in F.
        destruct F as [F|[F|[F|[F|[F|[F|[]]]]]]]; injection F as F1 F2; rewrite <- F1, <- F2 in M; cbn in M; discriminate.
      - cbn [descend] in DE. rewrite Z in DE. cbn [Nat.ltb Nat.leb] in DE. destruct (T tr 0 (s - off t)) in DE; discriminate. }
    subst k. rewrite T2 in LE. replace (off t + last_letter tr 1) with t in M by lia. replace (off t + (s - off t)) with s in M by lia.
    destruct (pair_zero t s Ht Hs ltac:(lia) M). auto.
  - cbn [gives]. assert (OE : off s <> off t) by (intros Q; apply E; now apply up_eq). split; apply ZE; auto.
Qed.
Lemma first_star_ok j k : j < n -> forall i, i + k = j -> (forall a, a < i -> B a j = 0%Z /\ B j a = 0%Z) ->
  gives (first_star k i trs upper j) (fun t => i <= t <= j /\ (t < j -> off t = off j /\ T (nth j trs no_tr) 1 (t - off j) < tr_size (nth j trs no_tr)) /\ forall a, a < t -> B a j = 0%Z /\ B j a = 0%Z) sure.
Proof.
  intros Hj. induction k as [|k IH]; intros i Hi H; cbn [first_star].
  - cbn [gives]. split; [lia|]. split; [lia|]. intros a Ha. apply H. lia.
  - apply (gives_run _ _ _ _ (inner_commutes_ok i j ltac:(lia) Hj)). intros [|] HB.
    + eapply gives_imp; [|apply (IH (S i)); [lia|]].
      * intros t (A1 & A2 & A3). split; [lia|auto].
      * intros a Ha. destruct (Nat.eq_dec a i) as [->|]; [auto|]. apply H. lia.
    + cbn [gives]. split; [lia|]. split; auto.
Qed.
End Commutes.

Section Make.
Variables (n : nat) (A : nat -> nat -> Z) (comps : list component).
Hypothesis D : describes n A comps.
Hypothesis RM : n <= rank_max.

Lemma d_total : total comps = n.
Proof. destruct D as (_ & P & _). apply Permutation_length in P. rewrite seq_length in P. exact P. Qed.
Lemma d_at pre c post : comps = pre ++ c :: post -> c_offset c = total pre /\ total pre + rk c <= n.
Proof.
  intros E. destruct D as (C & _). rewrite E in C. apply consecutive_app in C. destruct C as [_ C]. cbn in C. destruct C as [C _].
  split; [exact C|]. rewrite <- d_total, E, total_app, total_cons. lia.
Qed.
Lemma d_simple c : In c comps -> simple_type (c_type c) (rk c) /\ 0 < rk c /\ c_offset c + rk c <= n.
Proof.
  intros I. destruct D as (_ & _ & S & _). destruct (S c I) as [S1 _]. split; [auto|].
  apply in_split in I. destruct I as (pre & post & E). destruct (d_at pre c post E) as [E1 E2].
  destruct (simple_in (c_type c) (rk c) S1 ltac:(lia)) as (k & _ & _ & P). lia.
Qed.
Lemma d_before pre c post c' : comps = pre ++ c :: post -> In c' pre -> c_offset c' + rk c' <= c_offset c.
Proof.
  intros E I. destruct (d_at pre c post E) as [E1 _]. apply in_split in I. destruct I as (p1 & p2 & ->). rewrite <- app_assoc in E. cbn [app] in E.
  destruct (d_at p1 c' (p2 ++ c :: post) E) as [E2 _]. rewrite E1, E2, total_app, total_cons. lia.
Qed.
Lemma d_unique c c' i : In c comps -> In c' comps -> c_offset c <= i < c_offset c + rk c -> c_offset c' <= i < c_offset c' + rk c' -> c = c'.
Proof.
  intros I I' H H'. apply in_split in I. destruct I as (pre & post & E). rewrite E in I'. apply in_app_iff in I'. destruct I' as [I'|[I'|I']]; [|auto|].
  - pose proof (d_before pre c post c' E I'). lia.
  - apply in_split in I'. destruct I' as (p1 & p2 & ->). pose proof (d_before (pre ++ c :: p1) c' p2 c ltac:(rewrite E, <- app_assoc; auto)) as X.
    specialize (X ltac:(apply in_app_iff; right; now left)). lia.
Qed.
Definition contains (i : nat) (c : component) : bool := (c_offset c <=? i) && (i <? c_offset c + rk c).
Lemma contains_iff i c : contains i c = true <-> c_offset c <= i < c_offset c + rk c.
Proof. unfold contains. rewrite andb_true_iff, Nat.leb_le, Nat.ltb_lt. tauto. Qed.
Lemma d_exists i : i < n -> exists c, In c comps /\ c_offset c <= i < c_offset c + rk c.
Proof.
  intros Hi. rewrite <- d_total in Hi. destruct D as (C & _). revert C Hi. clear D RM.
  enough (X : forall l a, consecutive c_offset c_position a l -> a <= i -> i < a + total l -> exists c, In c l /\ c_offset c <= i < c_offset c + rk c).
  { intros C Hi. apply (X comps 0); auto. lia. }
  induction l as [|c l IH]; intros a C La Hi; [cbn in Hi; lia|]. rewrite total_cons in Hi. destruct C as [C1 C2].
  destruct (Nat.lt_ge_cases i (a + rk c)) as [L|L].
  - exists c. split; [now left|]. lia.
  - destruct (IH (a + rk c) C2 L ltac:(lia)) as (c' & I & H). exists c'. split; [now right|auto].
Qed.
Definition no_comp : component := mk_comp "T" 0 [].
Definition comp_of (i : nat) : component := match find (contains i) comps with Some c => c | None => no_comp end.
Lemma comp_of_ok i c : In c comps -> c_offset c <= i < c_offset c + rk c -> comp_of i = c.
Proof.
  intros I H. unfold comp_of. destruct (find (contains i) comps) as [c'|] eqn:E.
  - apply find_some in E. destruct E as [I' H']. apply contains_iff in H'. apply (d_unique c' c i); auto.
  - apply (find_none _ _ E) in I. apply contains_iff in H. congruence.
Qed.
Lemma comp_of_spec i : i < n -> In (comp_of i) comps /\ c_offset (comp_of i) <= i < c_offset (comp_of i) + rk (comp_of i).
Proof. intros Hi. destruct (d_exists i Hi) as (c & I & H). now rewrite (comp_of_ok i c I H). Qed.
Definition off (i : nat) : nat := c_offset (comp_of i).
Definition up (i : nat) : nat := c_offset (comp_of i) + rk (comp_of i) - 1.
Definition outp (i : nat) : nat := nth (place (comp_of i) (i - off i)) (c_position (comp_of i)) 0.
Definition inner_matrix (i j : nat) : Z := A (outp i) (outp j).

Lemma up_off i : i < n -> off i <= i <= up i /\ up i < n.
Proof. intros Hi. destruct (comp_of_spec i Hi) as [I H]. destruct (d_simple _ I) as (_ & P & T). unfold off, up. lia. Qed.
Lemma same_comp i j : i < n -> off i <= j <= up i -> comp_of j = comp_of i.
Proof. intros Hi Hj. destruct (comp_of_spec i Hi) as [I H]. apply comp_of_ok; [auto|]. unfold off, up in Hj. lia. Qed.

(** *** the arrays d_out, d_in, upper *)
Lemma place_ok c i : i < rk c -> place c i < rk c.
Proof. unfold place. destruct (is_letter _ _); lia. Qed.
Lemma place_place c i : i < rk c -> place c (place c i) = i.
Proof. unfold place. destruct (is_letter _ _); lia. Qed.
Definition filled (pre : list component) (st : list nat * list nat) : Prop :=
  length (fst st) = n /\ length (snd st) = rank_max /\
  forall c i, In c pre -> i < rk c -> nth (c_offset c + i) (fst st) 0 = c_offset c + rk c - 1 /\ nth (c_offset c + i) (snd st) 0 = nth (place c i) (c_position c) 0.
Lemma place_component_ok pre c post st : comps = pre ++ c :: post -> filled pre st -> gives (place_component c st) (filled (pre ++ [c])) sure.
Proof.
  intros E (L1 & L2 & F). destruct st as [upper out]. cbn [fst snd] in *. unfold place_component. cbv zeta.
  assert (Ic : In c comps) by (rewrite E; apply in_app_iff; right; now left). destruct (d_simple c Ic) as (_ & P & T).
  set (last := c_offset c + rk c - 1).
  apply (gives_run _ _ (fun u => length u = n /\ (forall i, i < rk c -> nth (c_offset c + i) u 0 = last) /\ forall j, j < c_offset c -> nth j u 0 = nth j upper 0)).
  { apply (gives_range (fun k u => length u = n /\ (forall i, i < k -> nth (c_offset c + i) u 0 = last) /\ forall j, j < c_offset c -> nth j u 0 = nth j upper 0)).
    - split; [auto|]. split; [lia|auto].
    - intros i u Hi (U1 & U2 & U3). rewrite vput_upd by lia. cbn [gives]. split; [rewrite upd_length; lia|]. split; intros j Hj; rewrite upd_nth by lia.
      + destruct (Nat.eqb_spec (c_offset c + j) (c_offset c + i)); [auto|]. apply U2. lia.
      + destruct (Nat.eqb_spec j (c_offset c + i)); [lia|]. now apply U3. }
  intros upper' (U1 & U2 & U3).
  apply (gives_run _ _ (fun u => length u = rank_max /\ (forall i, i < rk c -> nth (c_offset c + i) u 0 = nth (place c i) (c_position c) 0) /\ forall j, j < c_offset c -> nth j u 0 = nth j out 0)).
  { eapply gives_imp; [|apply (gives_range (fun k u => length u = rank_max /\ (forall i, i < k -> nth (c_offset c + place c i) u 0 = nth i (c_position c) 0) /\ forall j, j < c_offset c -> nth j u 0 = nth j out 0))].
    - cbn [Nat.add]. intros u (V1 & V2 & V3). split; [auto|]. split; [|auto]. intros i Hi. rewrite <- (V2 (place c i)) by now apply place_ok. now rewrite place_place.
    - split; [auto|]. split; [lia|auto].
    - intros i u Hi (V1 & V2 & V3). rewrite (vget_at _ i 0) by lia. cbn [bind].
      assert (PL : (if is_letter ["B"; "C"; "D"]%char (c_type c) then last - i else c_offset c + i) = c_offset c + place c i).
      { unfold place, last. destruct (is_letter _ _); lia. }
      rewrite PL. assert (Hi' : i < rk c) by lia. pose proof (place_ok c i Hi'). rewrite vput_upd by (unfold rank_max in *; lia). cbn [gives].
      split; [rewrite upd_length; unfold rank_max in *; lia|]. split; intros j Hj; rewrite upd_nth by (unfold rank_max in *; lia).
      + destruct (Nat.eqb_spec (c_offset c + place c j) (c_offset c + place c i)) as [Q|Q].
        * assert (place c j = place c i) by lia. f_equal. rewrite <- (place_place c j), <- (place_place c i) by lia. congruence.
        * apply V2. assert (j <> i) by (intros ->; auto). lia.
      + destruct (Nat.eqb_spec j (c_offset c + place c i)); [lia|]. now apply V3. }
  intros out' (V1 & V2 & V3). cbn [gives]. unfold filled. cbn [fst snd]. split; [auto|]. split; [auto|].
  intros c' i I Hi. apply in_app_iff in I. destruct I as [I|[<-|[]]].
  - pose proof (d_before pre c post c' E I). rewrite U3, V3 by lia. now apply F.
  - split; [now apply U2|now apply V2].
Qed.
Lemma fill_ok : gives (each_comp comps place_component (repeat 0 n, repeat 255 rank_max)) (filled comps) sure.
Proof.
  apply (gives_each filled).
  - split; [apply repeat_length|]. split; [apply repeat_length|]. intros c i [].
  - intros pre c post st E F. now apply (place_component_ok pre c post).
Qed.
Lemma filled_at st i : filled comps st -> i < n -> nth i (fst st) 0 = up i /\ nth i (snd st) 0 = outp i.
Proof.
  intros (_ & _ & F) Hi. destruct (comp_of_spec i Hi) as [I H]. specialize (F (comp_of i) (i - off i) I). unfold off in F at 1.
  replace (c_offset (comp_of i) + (i - off i)) with i in F by (unfold off; lia). apply F. unfold off. lia.
Qed.
(** the numbering is a bijection *)
Lemma outp_lt i : i < n -> outp i < n.
Proof.
  intros Hi. destruct (comp_of_spec i Hi) as [I H]. destruct D as (_ & P & _). unfold outp.
  assert (J : In (nth (place (comp_of i) (i - off i)) (c_position (comp_of i)) 0) (seq 0 n)); [|apply in_seq in J; lia].
  apply (Permutation_in _ P). apply in_concat. exists (c_position (comp_of i)). split; [now apply in_map|]. apply nth_In. apply place_ok. unfold off. lia.
Qed.
Lemma NoDup_app_split {X} (l l' : list X) : NoDup (l ++ l') -> NoDup l /\ NoDup l' /\ forall x, In x l -> ~ In x l'.
Proof.
  induction l as [|a l IH]; cbn; intros H; [split; [constructor|]; split; [auto|intros x []]|]. apply NoDup_cons_iff in H. destruct H as [N H]. destruct (IH H) as (I1 & I2 & I3).
  split; [constructor; [intros I; apply N; apply in_app_iff; auto|auto]|]. split; [auto|]. intros x [<-|I] J; [apply N, in_app_iff; auto|exact (I3 x I J)].
Qed.
Lemma concat_index (l : list component) : NoDup (concat (map c_position l)) -> forall c c' p, In c l -> In c' l -> In p (c_position c) -> In p (c_position c') -> NoDup (c_position c) /\ c = c'.
Proof.
  induction l as [|d l IH]; cbn; intros N c c' p I I' J J'; [destruct I|]. apply NoDup_app_split in N. destruct N as (N1 & N2 & N3).
  assert (X : forall c, In c l -> In p (c_position c) -> In p (concat (map c_position l))) by (intros e Ie Je; apply in_concat; exists (c_position e); split; [now apply in_map|auto]).
  destruct I as [->|I], I' as [->|I'].
  - split; auto.
  - exfalso. apply (N3 p J). now apply (X c').
  - exfalso. apply (N3 p J'). now apply (X c).
  - now apply (IH N2 c c' p).
Qed.
Lemma d_nodup : NoDup (concat (map c_position comps)).
Proof. destruct D as (_ & P & _). apply Permutation_sym in P. apply (Permutation_NoDup P). apply seq_NoDup. Qed.
Lemma outp_inj i j : i < n -> j < n -> outp i = outp j -> i = j.
Proof.
  intros Hi Hj E. destruct (comp_of_spec i Hi) as [I H]. destruct (comp_of_spec j Hj) as [J H2].
  assert (Pi : place (comp_of i) (i - off i) < rk (comp_of i)) by (apply place_ok; unfold off; lia).
  assert (Pj : place (comp_of j) (j - off j) < rk (comp_of j)) by (apply place_ok; unfold off; lia).
  unfold outp in E. destruct (concat_index comps d_nodup (comp_of i) (comp_of j) (outp i) I J) as [N Q].
  - unfold outp. now apply nth_In.
  - unfold outp. rewrite E. now apply nth_In.
  - assert (OF : off i = off j) by (unfold off; now rewrite Q). rewrite <- Q in *. rewrite NoDup_nth in N. apply N in E; auto.
    assert (X : i - off i = j - off j); [|unfold off in *; rewrite <- Q in *; lia].
    rewrite <- (place_place (comp_of i) (i - off i)) by (unfold off; lia). rewrite E. apply place_place. unfold off in *. rewrite <- Q in *. lia.
Qed.
Lemma outp_onto p : p < n -> exists i, i < n /\ outp i = p.
Proof.
  intros Hp. assert (I : In p (concat (map c_position comps))) by (destruct D as (_ & P & _); apply (Permutation_in _ (Permutation_sym P)), in_seq; lia).
  apply in_concat in I. destruct I as (l & I1 & I2). apply in_map_iff in I1. destruct I1 as (c & <- & Ic). apply (In_nth _ _ 0) in I2. destruct I2 as (k & Hk & E).
  destruct (d_simple c Ic) as (_ & P & T). exists (c_offset c + place c k). pose proof (place_ok c k Hk). split; [lia|].
  assert (Q : comp_of (c_offset c + place c k) = c) by (apply comp_of_ok; [auto|lia]). unfold outp, off. rewrite Q.
  replace (c_offset c + place c k - c_offset c) with (place c k) by lia. now rewrite place_place.
Qed.
Lemma inverse_array (out : list nat) : length out = rank_max -> (forall i, i < n -> nth i out 0 = outp i) ->
  gives (upto n 0 (fun i inn => run o <- vget out i; vput inn o i) (repeat 255 rank_max))
    (fun inn => length inn = rank_max /\ forall i, i < n -> nth (outp i) inn 0 = i) sure.
Proof.
  intros Lo F. apply (gives_range (fun k inn => length inn = rank_max /\ forall i, i < k -> nth (outp i) inn 0 = i)).
  - split; [apply repeat_length|lia].
  - intros i inn Hi [L1 L2]. rewrite (vget_at out i 0) by (unfold rank_max in *; lia). cbn [bind]. rewrite F by lia. assert (Hin : i < n) by lia.
    pose proof (outp_lt i Hin). rewrite vput_upd by (unfold rank_max in *; lia). cbn [gives]. split; [rewrite upd_length; unfold rank_max in *; lia|].
    intros j Hj. rewrite upd_nth by (unfold rank_max in *; lia). destruct (Nat.eqb_spec (outp j) (outp i)) as [Q|Q].
    + symmetry. apply outp_inj; auto; lia.
    + apply L2. assert (j <> i) by (intros ->; auto). lia.
Qed.

(** *** the transducers *)
Lemma off_comp i j : i < n -> j < n -> off i = off j -> comp_of j = comp_of i.
Proof.
  intros Hi Hj E. destruct (comp_of_spec i Hi) as [I H]. destruct (comp_of_spec j Hj) as [J H2]. unfold off in E.
  apply (d_unique _ _ (c_offset (comp_of i))); auto; lia.
Qed.
Lemma inner_entry i j : i < n -> j < n -> off i = off j -> inner_matrix i j = inner_cartan (c_type (comp_of i)) (i - off i) (j - off i).
Proof.
  intros Hi Hj E. destruct (comp_of_spec i Hi) as [I H]. destruct (comp_of_spec j Hj) as [J H2].
  pose proof (off_comp i j Hi Hj E) as Q.
  unfold inner_matrix, outp. rewrite Q, <- E. destruct D as (_ & _ & S & _). destruct (S _ I) as [S1 S2].
  assert (Pi : place (comp_of i) (i - off i) < rk (comp_of i)) by (apply place_ok; unfold off; lia).
  assert (Hj' : j - off i < rk (comp_of i)) by (unfold off; rewrite Q in H2; lia).
  assert (Pj : place (comp_of i) (j - off i) < rk (comp_of i)) by (now apply place_ok).
  rewrite (S2 _ _ _ _ (nth_error_nth' _ 0 Pi) (nth_error_nth' _ 0 Pj)). unfold place. apply cartan_inner; auto. unfold off. lia.
Qed.
Lemma off_zero i j : i < n -> j < n -> off i <> off j -> inner_matrix i j = 0%Z.
Proof.
  intros Hi Hj N. destruct (comp_of_spec i Hi) as [I H]. destruct (comp_of_spec j Hj) as [J H2]. destruct D as (_ & _ & _ & Z).
  apply (Z (comp_of i) (comp_of j)); auto; unfold outp; apply nth_In, place_ok; unfold off; lia.
Qed.
Lemma matrix_like : Cartan_like n inner_matrix.
Proof.
  split.
  - intros i Hi. rewrite inner_entry by auto. apply inner_cartan_diag.
  - intros i j Hi Hj N. destruct (Nat.eq_dec (off i) (off j)) as [E|E].
    + rewrite (inner_entry i j), (inner_entry j i) by auto. rewrite <- E, (off_comp i j Hi Hj E). apply inner_cartan_pair.
      destruct (up_off i Hi), (up_off j Hj). lia.
    + rewrite !off_zero by auto. left. reflexivity.
Qed.
Definition installed (pre : list component) (trs : list transducer) : Prop :=
  length trs = n /\ forall c i, In c pre -> i < rk c -> make_transducer (c_type c) (c_offset c) i = Ok (nth (c_offset c + i) trs no_tr).
Lemma install_ok : gives (each_comp comps (fun comp trs =>
    upto (rk comp) 0 (fun i trs => run tr <- make_transducer (c_type comp) (c_offset comp) i; vput trs (c_offset comp + i) tr) trs) (repeat no_tr n)) (installed comps) sure.
Proof.
  apply (gives_each installed).
  - split; [apply repeat_length|]. intros c i [].
  - intros pre c post trs E [L1 F]. assert (Ic : In c comps) by (rewrite E; apply in_app_iff; right; now left). destruct (d_simple c Ic) as (S1 & P & TT).
    destruct (simple_in _ _ S1 ltac:(lia)) as (k & IK & RK & _).
    eapply gives_imp; [|apply (gives_range (fun j tr' => length tr' = n /\ (forall i, i < j -> make_transducer (c_type c) (c_offset c) i = Ok (nth (c_offset c + i) tr' no_tr)) /\ forall i, i < c_offset c -> nth i tr' no_tr = nth i trs no_tr))].
    + cbn [Nat.add]. intros tr' (A1 & A2 & A3). split; [auto|]. intros c' i I Hi. apply in_app_iff in I. destruct I as [I|[<-|[]]]; [|auto].
      pose proof (d_before pre c post c' E I). rewrite A3 by lia. now apply F.
    + split; [auto|]. split; [lia|auto].
    + intros i tr' Hi (A1 & A2 & A3). destruct (transducer_ok (c_type c) k (c_offset c) i IK ltac:(lia)) as (tr & M & _). rewrite M. cbn [bind].
      rewrite vput_upd by lia. cbn [gives]. split; [rewrite upd_length; lia|]. split; intros j Hj; rewrite upd_nth by lia.
      * destruct (Nat.eqb_spec (c_offset c + j) (c_offset c + i)) as [Q|Q]; [replace j with i by lia; auto|apply A2; lia].
      * destruct (Nat.eqb_spec j (c_offset c + i)); [lia|auto].
Qed.
Lemma installed_at trs i : installed comps trs -> i < n ->
  tr_offset (nth i trs no_tr) = off i /\ tr_limit (nth i trs no_tr) = S i - off i /\
  good_table (fun a b => coxeter inner_matrix (off i + a) (off i + b)) (nth i trs no_tr) /\ separated (fun a b => inner_matrix (off i + a) (off i + b)%nat) (nth i trs no_tr).
Proof.
  intros [L1 F] Hi. destruct (comp_of_spec i Hi) as [I H]. destruct (d_simple _ I) as (S1 & P & TT). destruct (simple_in _ _ S1 ltac:(lia)) as (k & IK & RK & _).
  specialize (F (comp_of i) (i - off i) I ltac:(unfold off; lia)). fold (off i) in F. replace (off i + (i - off i)) with i in F by (unfold off; lia).
  destruct (transducer_ok (c_type (comp_of i)) k (off i) (i - off i) IK ltac:(unfold off; lia)) as (tr & M & T1 & T2 & T3 & T4). rewrite F in M. injection M as M. rewrite M.
  destruct (up_off i Hi) as [U1 U2].
  assert (EQ : forall a b, a < tr_limit tr -> b < tr_limit tr -> inner_cartan (c_type (comp_of i)) a b = inner_matrix (off i + a) (off i + b)).
  { intros a b Ha Hb. rewrite T2 in Ha, Hb. assert (Ca : comp_of (off i + a) = comp_of i) by (apply same_comp; lia). assert (Cb : comp_of (off i + b) = comp_of i) by (apply same_comp; lia).
    assert (Oa : off (off i + a) = off i) by (unfold off at 1; now rewrite Ca). assert (Ob : off (off i + b) = off i) by (unfold off at 1; now rewrite Cb).
    rewrite inner_entry by lia. rewrite Oa, Ca. f_equal; lia. }
  split; [auto|]. split; [lia|]. split.
  - apply (good_table_ext (coxeter (inner_cartan (c_type (comp_of i))))); [|auto]. intros a b Ha Hb. unfold coxeter. now rewrite !EQ.
  - apply (separated_ext (inner_cartan (c_type (comp_of i))) _ _ _ T3); auto.
Qed.
Theorem make_weyl_ok : exists W, make_weyl n comps = Ok W /\ installed comps (w_transducer W) /\ good_group n inner_matrix off up W /\
  length (w_in W) = rank_max /\ length (w_out W) = rank_max /\ forall i, i < n -> nth i (w_out W) 0 = outp i /\ nth (outp i) (w_in W) 0 = i.
Proof.
  apply gives_sure. unfold make_weyl. apply (gives_run _ _ _ _ fill_ok). intros st FI. destruct st as [upper out].
  pose proof FI as (L1 & L2 & _). cbn [fst snd] in *.
  assert (FU : forall i, i < n -> nth i upper 0 = up i /\ nth i out 0 = outp i) by (intros i Hi; apply (filled_at (upper, out) i FI Hi)).
  apply (gives_run _ _ _ _ (inverse_array out L2 ltac:(intros i Hi; now apply FU))). intros inn [L3 FIN].
  apply (gives_run _ _ _ _ install_ok). intros trs IN. pose proof IN as [L4 _].
  assert (TR : forall i, i < n -> tr_offset (nth i trs no_tr) = off i /\ tr_limit (nth i trs no_tr) = S i - off i /\
     good_table (fun a b => coxeter inner_matrix (off i + a) (off i + b)) (nth i trs no_tr)).
  { intros i Hi. destruct (installed_at trs i IN Hi) as (A1 & A2 & A3 & _). auto. }
  assert (CO : forall i j, i < n -> off i <= j <= up i -> off j = off i /\ up j = up i).
  { intros i j Hi Hj. unfold off at 1. unfold up at 1. rewrite (same_comp i j Hi Hj). auto. }
  assert (UP : forall i, i < n -> nth i upper 0 = up i) by (intros i Hi; now apply FU).
  apply (gives_run _ _ _ _ (make_row_ok 0 n _ (fun j t => 0 <= t <= j /\ (t < j -> off t = off j /\ T (nth j trs no_tr) 1 (t - off j) < tr_size (nth j trs no_tr)) /\ forall a, a < t -> inner_matrix a j = 0%Z /\ inner_matrix j a = 0%Z)
    (fun j Hj => first_star_ok n inner_matrix off up trs upper L4 L1 TR UP up_off CO off_zero matrix_like j j Hj 0 eq_refl ltac:(lia)))).
  intros ms [L5 MS]. cbn [gives]. split; [exact IN|]. split; [|split; [auto|split; [auto|]]].
  - constructor; cbn [w_transducer w_min_star w_upper]; auto.
    + intros i Hi. unfold trn. cbn [w_transducer]. now apply TR.
    + intros i Hi. unfold trn. cbn [w_transducer]. now apply TR.
    + intros i Hi. unfold trn. cbn [w_transducer]. now apply TR.
    + intros i Hi. unfold trn. cbn [w_transducer]. now apply (installed_at trs i IN Hi).
    + exact up_off.
    + exact off_zero.
    + exact matrix_like.
    + intros j Hj. destruct (MS j Hj) as (A1 & A2 & A3). set (t := nth j ms 0) in *. destruct (up_off j Hj) as [U1 U2]. split; [|lia].
      destruct (Nat.eq_dec t j) as [->|]; [lia|]. destruct (A2 ltac:(lia)) as [E _]. destruct (up_off t ltac:(lia)). lia.
    + intros i j Hj Hi. destruct (MS j Hj) as (_ & _ & A3). auto.
  - intros i Hi. cbn [w_out w_in]. split; [now apply FU|auto].
Qed.
End Make.
