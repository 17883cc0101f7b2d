(** Weyl groups: invariant of the tables of a group, and multiplication by generators *)

From Coq Require Import List Arith ZArith Lia Bool Ascii.
From Verif Require Import VecModel VecProofs RunModel RunProofs WeylModel WeylSpec WeylTable WeylCheck WeylExchange.
Import ListNotations.
Open Scope nat_scope.

Notation sure := (fun _ : err => False).
Lemma gives_sure {A} (c : res A) (P : A -> Prop) : gives c P sure -> exists a, c = Ok a /\ P a.
Proof. destruct c; cbn; [eauto|tauto]. Qed.
Lemma sure_gives {A} (c : res A) (P : A -> Prop) : (exists a, c = Ok a /\ P a) -> gives c P sure.
Proof. intros (a & -> & H). auto. Qed.
Lemma gives_imp {A} (c : res A) (P Q : A -> Prop) : (forall a, P a -> Q a) -> gives c P sure -> gives c Q sure.
Proof. intros H. destruct c; cbn; auto. Qed.
Lemma vget_at {A} (l : list A) i d : i < length l -> vget l i = Ok (nth i l d).
Proof. intros H. unfold vget. now rewrite (get_nth l i d H). Qed.
Lemma vget_eq {A} (l : list A) i x : nth_error l i = Some x -> vget l i = Ok x.
Proof. unfold vget, get. now intros ->. Qed.
(** replacing an entry *)
Definition upd {A} (l : list A) (i : nat) (x : A) : list A := firstn i l ++ x :: skipn (S i) l.
Lemma upd_length {A} (l : list A) i x : i < length l -> length (upd l i x) = length l.
Proof. intros H. unfold upd. rewrite app_length, firstn_length_le by lia. cbn [length]. rewrite skipn_length. lia. Qed.
Lemma upd_nth {A} (l : list A) i x d j : i < length l -> nth j (upd l i x) d = if j =? i then x else nth j l d.
Proof.
  intros H. unfold upd. destruct (Nat.eqb_spec j i) as [E|E].
  - subst. rewrite app_nth2; rewrite firstn_length_le by lia; [|lia]. now rewrite Nat.sub_diag.
  - destruct (Nat.lt_ge_cases j i) as [L|L].
    + rewrite app_nth1 by (rewrite firstn_length_le; lia). rewrite <- (firstn_skipn i l) at 2. rewrite app_nth1; [auto|rewrite firstn_length_le; lia].
    + rewrite app_nth2; rewrite firstn_length_le by lia; [|lia]. destruct (j - i) as [|k] eqn:E1; [lia|]. cbn [nth].
      rewrite <- (firstn_skipn (S i) l) at 2. rewrite app_nth2; rewrite firstn_length_le by lia; [|lia]. f_equal. lia.
Qed.
Lemma vput_upd {A} (l : list A) i x : i < length l -> vput l i x = Ok (upd l i x).
Proof.
  intros H. destruct (put_spec l i x H) as (w & E & L & G). unfold vput. rewrite E. f_equal.
  apply (nth_ext w (upd l i x) x x); [rewrite upd_length; auto|]. intros j Hj. rewrite L in Hj.
  rewrite upd_nth by auto. specialize (G j). destruct (Nat.eqb_spec j i) as [Q|Q].
  - apply (get_nth_eq _ _ _ _ G).
  - rewrite (get_nth l j x Hj) in G. apply (get_nth_eq _ _ _ _ G).
Qed.

(** *** letters of a piece *)
Section Letters.
Variables (m : nat -> nat -> nat) (tr : transducer).
Hypothesis G : good_table m tr.
Lemma table_at_ok x s : x < tr_size tr -> s < tr_limit tr -> table_at tr x s = Ok (T tr x s).
Proof.
  intros Hx Hs. unfold table_at, T. rewrite (vget_at _ x []) by (rewrite (g_rows m tr G); auto). cbn [bind].
  apply vget_at. rewrite (g_row m tr G); auto. apply nth_In. rewrite (g_rows m tr G). auto.
Qed.
Lemma has_shift_ok x s : x < tr_size tr -> s < tr_limit tr -> has_shift tr x s = Ok (T tr x s <? tr_size tr).
Proof. intros Hx Hs. unfold has_shift. now rewrite table_at_ok. Qed.
Lemma tr_shift_ok x s : x < tr_size tr -> s < tr_limit tr -> tr_shift tr x s = Ok (T tr x s).
Proof. intros. now apply table_at_ok. Qed.
Lemma tr_out_ok x s : x < tr_size tr -> s < tr_limit tr -> tr_out tr x s = Ok (T tr x s - tr_size tr).
Proof. intros Hx Hs. unfold tr_out. now rewrite table_at_ok. Qed.
Lemma tr_length_ok x : x < tr_size tr -> tr_length tr x = Ok (len tr x).
Proof. intros H. unfold tr_length. rewrite (vget_at _ x (mk_info 0 None)) by auto. auto. Qed.
Lemma unshift_ok x : 0 < x < tr_size tr -> unshift tr x = Ok (last_letter tr x, T tr x (last_letter tr x)).
Proof.
  intros H. destruct (last_ok m tr G x H) as [L D]. unfold unshift. rewrite (vget_at _ x (mk_info 0 None)) by (unfold tr_size in H; lia). cbn [bind].
  destruct (g_tree m tr G x H) as (s & E & _ & _). fold (info tr x). rewrite E. cbn [of_option bind].
  assert (Q : s = last_letter tr x) by (unfold last_letter; now rewrite E). subst s. now rewrite tr_shift_ok by (auto; lia).
Qed.
Lemma letters_ok x : x < tr_size tr -> letters tr x = Ok (rev (piece_word tr x)).
Proof.
  intros H. unfold letters.
  assert (X : forall k y l, y < tr_size tr -> y <= k -> gives (loop k (fun '(x, _) => Ok (0 <? x)) (fun '(x, l) => run (s, y) <- unshift tr x; Ok (y, l ++ [s])) (y, l))
    (fun '(_, l') => l' = l ++ rev (piece_word tr y)) sure).
  { induction k as [|k IH]; intros y l Hy Hk; cbn [loop bind].
    - assert (y = 0) by lia. subst. cbn. now rewrite app_nil_r.
    - destruct (Nat.ltb_spec 0 y) as [L|L].
      + rewrite unshift_ok by lia. cbn [bind]. destruct (last_ok m tr G y ltac:(lia)) as [_ D].
        eapply gives_imp; [|apply (IH (T tr y (last_letter tr y)) (l ++ [last_letter tr y])); lia].
        intros [a l'] E. cbv beta in *. subst l'. rewrite (piece_word_S m tr G y) by lia. rewrite rev_app_distr. cbn [rev app]. now rewrite <- app_assoc.
      + assert (y = 0) by lia. subst. cbn. now rewrite app_nil_r. }
  pose proof (g_size m tr G) as S. specialize (X 256 x [] H ltac:(lia)). apply gives_sure in X. destruct X as ([a l] & E & F). rewrite E. cbn [bind]. subst. auto.
Qed.
Lemma stack_ok x : x < tr_size tr -> stack tr x = Ok (piece_word tr x).
Proof.
  intros H. unfold stack. rewrite letters_ok by auto. cbn [bind]. rewrite rev_length, rev_involutive, (piece_length m tr G x H).
  pose proof (g_length m tr G x H) as L. apply Nat.leb_le in L. now rewrite L.
Qed.
End Letters.

(** a Cartan matrix of finite type has pairs of opposite entries of these kinds *)
Definition finite_pair (a b : Z) : Prop :=
  In (a, b) [(0, 0); (-1, -1); (-1, -2); (-2, -1); (-1, -3); (-3, -1)]%Z.
Definition Cartan_like (n : nat) (B : nat -> nat -> Z) : Prop :=
  (forall i, i < n -> B i i = 2%Z) /\ forall i j, i < n -> j < n -> i <> j -> finite_pair (B i j) (B j i).

(** *** the reflections satisfy the relations *)
Lemma reflect_square n B s v : Cartan_like n B -> s < n -> forall j, reflect B s (reflect B s v) j = v j.
Proof. intros [D _] Hs j. unfold reflect. rewrite (D s Hs). ring. Qed.
Lemma reflect_braid n B s t v : Cartan_like n B -> s < n -> t < n -> s <> t ->
  forall j, reflect_word B (alt (coxeter B s t) s t) v j = reflect_word B (alt (coxeter B s t) t s) v j.
Proof.
  intros [D F] Hs Ht Hn j. pose proof (F s t Hs Ht Hn) as P. unfold coxeter. pose proof (D s Hs) as Ds. pose proof (D t Ht) as Dt.
  unfold finite_pair in P. cbn in P.
  destruct P as [P|[P|[P|[P|[P|[P|[]]]]]]]; injection P as P1 P2; rewrite <- P1, <- P2; cbn [bond Z.mul Z.opp Pos.mul Pos.add alt reflect_word fold_left];
    unfold reflect; rewrite ?Ds, ?Dt, <- ?P1, <- ?P2; ring.
Qed.
Lemma reflect_word_cons B s u v : reflect_word B (s :: u) v = reflect_word B u (reflect B s v).
Proof. reflexivity. Qed.
Lemma reflect_word_app B u v x : reflect_word B (u ++ v) x = reflect_word B v (reflect_word B u x).
Proof. unfold reflect_word. apply fold_left_app. Qed.
Theorem reflect_same n B u v : Cartan_like n B -> same n (coxeter B) u v -> forall x j, reflect_word B u x j = reflect_word B v x j.
Proof.
  intros C. induction 1 as [u|u v H IH|u v w H1 IH1 H2 IH2|u u' v v' H1 IH1 H2 IH2|s Hs|s t Hs Ht Hn]; intros x j.
  - auto.
  - symmetry. apply IH.
  - rewrite IH1. apply IH2.
  - rewrite !reflect_word_app. rewrite IH2. apply reflect_word_ext. intros k. apply IH1.
  - apply (reflect_square n B s x C Hs).
  - apply (reflect_braid n B s t x C Hs Ht Hn).
Qed.
Lemma reflect_fixed B i u : ~ In i u -> forall v, (forall j, v j = fund i j) -> forall j, reflect_word B u v j = fund i j.
Proof.
  induction u as [|s u IH]; intros N v H j; cbn; [auto|]. apply IH; [intros I; apply N; now right|]. intros k. unfold reflect.
  rewrite (H s). unfold fund at 1. destruct (Nat.eqb_spec s i) as [E|E]; [exfalso; apply N; now left|]. rewrite Z.mul_0_l, Z.sub_0_r. apply H.
Qed.
Lemma reflect_local B o u : forall v j, reflect_word B (map (fun s => o + s) u) v (o + j) = reflect_word (fun a b => B (o + a) (o + b)) u (fun j => v (o + j)) j.
Proof. induction u as [|s u IH]; intros v j; [auto|]. cbn [map]. rewrite !reflect_word_cons, IH. auto. Qed.

(** *** the tables of a group *)
Definition no_tr : transducer := mk_tr 0 0 [] [].
Definition trn (W : weyl_group) (i : nat) : transducer := nth i (w_transducer W) no_tr.
Record good_group (n : nat) (B : nat -> nat -> Z) (off up : nat -> nat) (W : weyl_group) : Prop := {
  gg_trs : length (w_transducer W) = n;
  gg_min_star : length (w_min_star W) = n;
  gg_upper : length (w_upper W) = n;
  gg_offset : forall i, i < n -> tr_offset (trn W i) = off i;
  gg_limit : forall i, i < n -> tr_limit (trn W i) = S i - off i;
  gg_table : forall i, i < n -> good_table (fun a b => coxeter B (off i + a) (off i + b)) (trn W i);
  gg_separated : forall i, i < n -> separated (fun a b => B (off i + a) (off i + b)%nat) (trn W i);
  gg_bounds : forall i, i < n -> off i <= i <= up i /\ up i < n;
  gg_comp : forall i j, i < n -> off i <= j <= up i -> off j = off i /\ up j = up i;
  gg_up : forall i, i < n -> nth i (w_upper W) 0 = up i;
  gg_zero : forall i j, i < n -> j < n -> off i <> off j -> B i j = 0%Z;
  gg_cartan : Cartan_like n B;
  gg_star : forall j, j < n -> off j <= nth j (w_min_star W) 0 <= j;
  gg_star_commute : forall i j, j < n -> i < nth j (w_min_star W) 0 -> B i j = 0%Z /\ B j i = 0%Z }.

Section Group.
Variables (n : nat) (B : nat -> nat -> Z) (off up : nat -> nat) (W : weyl_group).
Hypothesis G : good_group n B off up W.
Notation "u ~ v" := (same n (coxeter B) u v) (at level 70).
Notation size i := (tr_size (trn W i)).

Definition valid (w : list nat) : Prop := length w = n /\ forall i, i < n -> nth i w 0 < size i.
Definition pw (i x : nat) : list nat := map (fun s => off i + s) (piece_word (trn W i) x).
Definition evr (w : list nat) (a k : nat) : list nat := concat (map (fun i => pw i (nth i w 0)) (seq a k)).
Definition ev (w : list nat) : list nat := evr w 0 n.

Lemma evr_app w a k l : evr w a (k + l) = evr w a k ++ evr w (a + k) l.
Proof. unfold evr. now rewrite seq_app, map_app, concat_app. Qed.
Lemma evr_S w a k : evr w a (S k) = evr w a k ++ pw (a + k) (nth (a + k) w 0).
Proof. rewrite <- Nat.add_1_r, evr_app. f_equal. unfold evr. cbn. apply app_nil_r. Qed.
Lemma evr_ext w w' a k : (forall i, a <= i < a + k -> nth i w 0 = nth i w' 0) -> evr w a k = evr w' a k.
Proof. intros H. unfold evr. f_equal. apply map_ext_in. intros i I. apply in_seq in I. now rewrite H. Qed.
Lemma tr_get i : i < n -> vget (w_transducer W) i = Ok (trn W i).
Proof. intros H. apply vget_at. now rewrite (gg_trs _ _ _ _ _ G). Qed.
Lemma up_get i : i < n -> vget (w_upper W) i = Ok (up i).
Proof. intros H. rewrite (vget_at _ i 0) by now rewrite (gg_upper _ _ _ _ _ G). now rewrite (gg_up _ _ _ _ _ G). Qed.
Lemma star_get i : i < n -> vget (w_min_star W) i = Ok (nth i (w_min_star W) 0).
Proof. intros H. apply vget_at. now rewrite (gg_min_star _ _ _ _ _ G). Qed.
Lemma rank_ok : w_rank W = n.
Proof. exact (gg_min_star _ _ _ _ _ G). Qed.

Lemma pw_letter i x s : i < n -> x < size i -> In s (pw i x) -> off i <= s <= i.
Proof.
  intros Hi Hx I. unfold pw in I. apply in_map_iff in I. destruct I as (a & <- & I). apply (piece_over _ _ (gg_table _ _ _ _ _ G i Hi) x Hx) in I.
  rewrite (gg_limit _ _ _ _ _ G i Hi) in I. lia.
Qed.
Lemma pw_over i x : i < n -> x < size i -> over n (pw i x).
Proof. intros Hi Hx s I. apply (pw_letter i x s Hi Hx) in I. lia. Qed.
Lemma pw_length i x : i < n -> x < size i -> length (pw i x) = len (trn W i) x.
Proof. intros Hi Hx. unfold pw. rewrite map_length. apply (piece_length _ _ (gg_table _ _ _ _ _ G i Hi)); auto. Qed.
Lemma evr_letter w a k s : valid w -> a + k <= n -> In s (evr w a k) -> exists i, a <= i < a + k /\ off i <= s <= i.
Proof.
  intros [_ V] L I. unfold evr in I. apply in_concat in I. destruct I as (l & I1 & I2). apply in_map_iff in I1. destruct I1 as (i & <- & I1).
  apply in_seq in I1. exists i. split; [lia|]. apply (pw_letter i (nth i w 0)); auto; [lia|]. apply V. lia.
Qed.
Lemma evr_over w a k : valid w -> a + k <= n -> over n (evr w a k).
Proof. intros V L s I. destruct (evr_letter w a k s V L I) as (i & A & C). lia. Qed.
Lemma ev_over w : valid w -> over n (ev w).
Proof. intros V. now apply evr_over. Qed.

(** words of a part of a component *)
Lemma local_same i u v : i < n -> same (tr_limit (trn W i)) (fun a b => coxeter B (off i + a) (off i + b)) u v ->
  map (fun s => off i + s) u ~ map (fun s => off i + s) v.
Proof.
  intros Hi. apply same_map.
  - intros s Hs. rewrite (gg_limit _ _ _ _ _ G i Hi) in Hs. lia.
  - intros s t _ _ Hn. split; [lia|auto].
Qed.
Lemma pw_shift i x s : i < n -> x < size i -> s < tr_limit (trn W i) -> T (trn W i) x s < size i ->
  pw i x ++ [off i + s] ~ pw i (T (trn W i) x s).
Proof.
  intros Hi Hx Hs HT. pose proof (shift_valid _ _ (gg_table _ _ _ _ _ G i Hi) x s Hx Hs HT) as E. apply (local_same i _ _ Hi) in E.
  rewrite map_app in E. exact E.
Qed.
Lemma pw_out i x s : i < n -> x < size i -> s < tr_limit (trn W i) -> size i <= T (trn W i) x s ->
  pw i x ++ [off i + s] ~ (off i + (T (trn W i) x s - size i)) :: pw i x.
Proof.
  intros Hi Hx Hs HT. pose proof (out_valid _ _ (gg_table _ _ _ _ _ G i Hi) x s Hx Hs HT) as E. apply (local_same i _ _ Hi) in E.
  rewrite map_app in E. exact E.
Qed.

(** the answers +1 and -1 *)
Definition change (c : Z) (u v : list nat) : Prop := (c = 1%Z /\ length v = S (length u)) \/ (c = (-1)%Z /\ length u = S (length v)).

Lemma transduce_ok i : forall w s, i < n -> valid w -> s < tr_limit (trn W i) ->
  gives (transduce W w i s) (fun '(w', c) => valid w' /\ (forall j, j < off i \/ i < j -> nth j w' 0 = nth j w 0) /\
    evr w (off i) (S i - off i) ++ [off i + s] ~ evr w' (off i) (S i - off i) /\
    change c (evr w (off i) (S i - off i)) (evr w' (off i) (S i - off i))) sure.
Proof.
  induction i as [|k IH]; intros w s Hi V Hs; pose proof V as [VL VS];
    cbn [transduce]; rewrite (vget_at w _ 0) by lia; cbn [bind]; rewrite tr_get by auto; cbn [bind].
  - set (x := nth 0 w 0) in *. pose proof (VS 0 Hi) as Hx. fold x in Hx. pose proof (gg_table _ _ _ _ _ G 0 Hi) as GT.
    rewrite (has_shift_ok _ _ GT) by auto. cbn [bind]. destruct (gg_bounds _ _ _ _ _ G 0 Hi) as [O1 _].
    pose proof (gg_limit _ _ _ _ _ G 0 Hi) as LI.
    destruct (Nat.ltb_spec (T (trn W 0) x s) (size 0)) as [L|L].
    2:{ pose proof (g_out _ _ GT x s Hx Hs L) as O2. lia. }
    rewrite (tr_shift_ok _ _ GT) by auto. cbn [bind]. rewrite vput_upd by lia. cbn [bind gives].
    assert (N : forall j, nth j (upd w 0 (T (trn W 0) x s)) 0 = if j =? 0 then T (trn W 0) x s else nth j w 0) by (intros j; apply upd_nth; lia).
    set (w' := upd w 0 (T (trn W 0) x s)) in *.
    split; [split; [unfold w'; rewrite upd_length; lia|]|split].
    + intros j Hj. rewrite N. destruct (Nat.eqb_spec j 0) as [Q|Q]; [subst; auto|auto].
    + intros j Hj. rewrite N. destruct (Nat.eqb_spec j 0); [lia|auto].
    + assert (OF : off 0 = 0) by lia. rewrite OF. cbn [Nat.sub].
      assert (EV : forall y, evr y 0 1 = pw 0 (nth 0 y 0)) by (intros y; unfold evr; cbn; apply app_nil_r). rewrite !EV.
      rewrite (N 0). cbn [Nat.eqb]. fold x. split.
      * pose proof (pw_shift 0 x s Hi Hx Hs L) as E. rewrite OF in E. exact E.
      * unfold change. rewrite !pw_length by auto. destruct (g_shift _ _ GT x s Hx Hs L) as (N1 & N2 & N3).
        destruct (Nat.ltb_spec (T (trn W 0) x s) x) as [D|D]; [right; rewrite (N3 D); auto|left]. split; [auto|].
        destruct (g_shift _ _ GT (T (trn W 0) x s) s L Hs ltac:(rewrite N2; auto)) as (_ & _ & M3). rewrite N2 in M3. apply M3. lia.
  - set (i := S k) in *. set (x := nth i w 0) in *. pose proof (VS i Hi) as Hx. fold x in Hx. pose proof (gg_table _ _ _ _ _ G i Hi) as GT.
    rewrite (has_shift_ok _ _ GT) by auto. cbn [bind]. destruct (gg_bounds _ _ _ _ _ G i Hi) as [O1 O1'].
    pose proof (gg_limit _ _ _ _ _ G i Hi) as LI.
    assert (SP : forall y, evr y (off i) (S i - off i) = evr y (off i) (i - off i) ++ pw i (nth i y 0)).
    { intros y. replace (S i - off i) with (S (i - off i)) by lia. rewrite evr_S. replace (off i + (i - off i)) with i by lia. auto. }
    destruct (Nat.ltb_spec (T (trn W i) x s) (size i)) as [L|L].
    + rewrite (tr_shift_ok _ _ GT) by auto. cbn [bind]. rewrite vput_upd by lia. cbn [bind gives].
      assert (N : forall j, nth j (upd w i (T (trn W i) x s)) 0 = if j =? i then T (trn W i) x s else nth j w 0) by (intros j; apply upd_nth; lia).
      set (w' := upd w i (T (trn W i) x s)) in *.
      split; [split; [unfold w'; rewrite upd_length; lia|]|split].
      * intros j Hj. rewrite N. destruct (Nat.eqb_spec j i) as [Q|Q]; [subst j; auto|auto].
      * intros j Hj. rewrite N. destruct (Nat.eqb_spec j i); [lia|auto].
      * rewrite !SP, (N i), Nat.eqb_refl. fold x.
        assert (EE : evr w' (off i) (i - off i) = evr w (off i) (i - off i)).
        { apply evr_ext. intros j Hj. rewrite N. destruct (Nat.eqb_spec j i); [lia|auto]. }
        rewrite EE. split.
        -- rewrite <- app_assoc. apply same_app_l. now apply pw_shift.
        -- unfold change. rewrite !app_length, !pw_length by auto. destruct (g_shift _ _ GT x s Hx Hs L) as (N1 & N2 & N3).
           destruct (Nat.ltb_spec (T (trn W i) x s) x) as [D|D]; [right; rewrite (N3 D); split; [auto|lia]|left]. split; [auto|].
           destruct (g_shift _ _ GT (T (trn W i) x s) s L Hs ltac:(rewrite N2; auto)) as (_ & _ & M3). rewrite N2 in M3. rewrite M3 by lia. lia.
    + rewrite (tr_out_ok _ _ GT) by auto. cbn [bind]. pose proof (g_out _ _ GT x s Hx Hs L) as O2. set (s' := T (trn W i) x s - size i) in *.
      assert (Hk : k < n) by (unfold i in *; lia). assert (Ok1 : off i <= k) by (unfold i in *; lia).
      destruct (gg_comp _ _ _ _ _ G i k Hi ltac:(unfold i in *; lia)) as [OK _].
      assert (LK : tr_limit (trn W k) = i - off i) by (rewrite (gg_limit _ _ _ _ _ G k Hk), OK; unfold i; lia).
      pose proof (IH w s' Hk V ltac:(lia)) as H. eapply gives_imp; [|exact H]. intros [w' c] (V' & N & E & C). cbv beta.
      rewrite OK in *. replace (S k - off i) with (i - off i) in * by (unfold i; lia).
      split; [auto|]. split; [intros j Hj; apply N; unfold i in *; lia|]. rewrite !SP. rewrite (N i) by (unfold i; lia). fold x. split.
      * rewrite <- app_assoc. apply (same_trans _ _ _ (evr w (off i) (i - off i) ++ (off i + s') :: pw i x)); [apply same_app_l; now apply pw_out|].
        change ((off i + s') :: pw i x) with ([off i + s'] ++ pw i x). rewrite app_assoc. now apply same_app_r.
      * unfold change in *. rewrite !app_length. lia.
Qed.

Lemma commute_other i j : i < n -> j < n -> off i <> off j -> coxeter B i j = 2.
Proof. intros Hi Hj H. unfold coxeter. rewrite (gg_zero _ _ _ _ _ G i j Hi Hj H). auto. Qed.
(** the three parts of a word *)
Lemma ev_split w g : g < n -> ev w = evr w 0 (off g) ++ evr w (off g) (S (up g) - off g) ++ evr w (S (up g)) (n - S (up g)).
Proof.
  intros Hg. destruct (gg_bounds _ _ _ _ _ G g Hg) as [A C]. unfold ev. rewrite app_assoc.
  replace n with (off g + (S (up g) - off g) + (n - S (up g))) at 1 by lia. rewrite !evr_app. cbn [Nat.add].
  replace (off g + (S (up g) - off g)) with (S (up g)) by lia. auto.
Qed.
Lemma off_above g j : g < n -> j < n -> up g < j -> off g <> off j.
Proof.
  intros Hg Hj L E. destruct (gg_bounds _ _ _ _ _ G j Hj) as [A C]. destruct (gg_bounds _ _ _ _ _ G g Hg) as [A' C'].
  destruct (gg_comp _ _ _ _ _ G j g Hj ltac:(lia)) as [_ E2]. lia.
Qed.
Lemma letter_comp i s : i < n -> off i <= s <= i -> off s = off i.
Proof. intros Hi Hs. destruct (gg_bounds _ _ _ _ _ G i Hi). now apply (gg_comp _ _ _ _ _ G i s Hi ltac:(lia)). Qed.

Theorem transduce_at_ok w g : valid w -> g < n -> gives (transduce W w (up g) (g - off g)) (fun '(w', c) => valid w' /\ ev w ++ [g] ~ ev w' /\ change c (ev w) (ev w')) sure.
Proof.
  intros V Hg. destruct (gg_bounds _ _ _ _ _ G g Hg) as [A C]. destruct (gg_comp _ _ _ _ _ G g (up g) Hg ltac:(lia)) as [O1 U1].
  eapply gives_imp; [|apply (transduce_ok (up g) w (g - off g)); auto].
  2:{ rewrite (gg_limit _ _ _ _ _ G (up g) C), O1. lia. }
  intros [w' c] (V' & N & E & D). cbv beta. split; [auto|]. rewrite O1 in *. replace (off g + (g - off g)) with g in E by lia.
  rewrite (ev_split w g Hg), (ev_split w' g Hg).
  rewrite (evr_ext w' w 0 (off g)) by (intros j Hj; apply N; lia). rewrite (evr_ext w' w (S (up g))) by (intros j Hj; apply N; lia). split.
  - rewrite <- !app_assoc. apply same_app_l.
    apply (same_trans _ _ _ (evr w (off g) (S (up g) - off g) ++ g :: evr w (S (up g)) (n - S (up g)))).
    + apply same_app_l. apply same_commute; [auto|apply evr_over; auto; lia|].
      intros t I. apply (evr_letter w) in I; [|auto|lia]. destruct I as (j & Hj & Ht).
      assert (Hjn : j < n) by lia. pose proof (letter_comp j t Hjn Ht) as Et. assert (NE : off g <> off t) by (rewrite Et; apply off_above; auto; lia).
      split; [intros ->; auto|]. apply commute_other; auto; lia.
    + change (g :: evr w (S (up g)) (n - S (up g))) with ([g] ++ evr w (S (up g)) (n - S (up g))). rewrite app_assoc. now apply same_app_r.
  - unfold change in *. rewrite !app_length. lia.
Qed.
Theorem inner_mult_ok w s : valid w -> s < n -> gives (inner_mult W w s) (fun '(w', c) => valid w' /\ ev w ++ [s] ~ ev w' /\ change c (ev w) (ev w')) sure.
Proof.
  intros V Hs. unfold inner_mult. rewrite up_get by auto. cbn [bind]. rewrite tr_get by auto. cbn [bind]. rewrite (gg_offset _ _ _ _ _ G s Hs).
  now apply transduce_at_ok.
Qed.

(** *** normal forms *)
Lemma pw_separated i x y : i < n -> x < size i -> y < size i ->
  (forall j, j < n -> reflect_word B (pw i x) (fund i) j = reflect_word B (pw i y) (fund i) j) -> x = y.
Proof.
  intros Hi Hx Hy E. apply (gg_separated _ _ _ _ _ G i Hi x y Hx Hy). intros j Hj. specialize (E (off i + j)). rewrite (gg_limit _ _ _ _ _ G i Hi) in *.
  destruct (gg_bounds _ _ _ _ _ G i Hi) as [O1 _]. specialize (E ltac:(lia)). unfold pw in E. rewrite !reflect_local in E.
  assert (F : forall k, fund (S i - off i - 1) k = fund i (off i + k)).
  { intros k. unfold fund. destruct (Nat.eqb_spec k (S i - off i - 1)), (Nat.eqb_spec (off i + k) i); lia || auto. }
  rewrite !(reflect_word_ext _ _ _ _ F). exact E.
Qed.
Lemma act_cancel u v r : over n u -> over n v -> over n r -> (forall x j, j < n -> reflect_word B (u ++ r) x j = reflect_word B (v ++ r) x j) ->
  forall x j, j < n -> reflect_word B u x j = reflect_word B v x j.
Proof.
  intros Ou Ov Or E x j Hj. assert (K : forall w, over n w -> reflect_word B w x j = reflect_word B (rev r) (reflect_word B (w ++ r) x) j).
  { intros w Ow. rewrite <- reflect_word_app. apply (reflect_same n B); [apply (gg_cartan _ _ _ _ _ G)|]. apply same_sym. rewrite <- app_assoc.
    rewrite <- (app_nil_r w) at 2. apply same_app_l. now apply same_inverse. }
  rewrite (K u Ou), (K v Ov). apply (reflect_word_matrix B B n); auto. intros s I. apply Or. now apply in_rev.
Qed.
(** normal forms that act alike are equal *)
Theorem act_inj w w' : valid w -> valid w' -> (forall x j, j < n -> reflect_word B (ev w) x j = reflect_word B (ev w') x j) -> w = w'.
Proof.
  intros V V'. assert (X : forall k, k <= n -> (forall x j, j < n -> reflect_word B (evr w 0 k) x j = reflect_word B (evr w' 0 k) x j) -> forall i, i < k -> nth i w 0 = nth i w' 0).
  { induction k as [|k IH]; intros L E i Hi; [lia|]. rewrite !evr_S in E. cbn [Nat.add] in E.
    assert (Q : nth k w 0 = nth k w' 0).
    { apply (pw_separated k); [lia|apply V; lia|apply V'; lia|]. intros j Hj. pose proof (E (fund k) j Hj) as R.
      rewrite !reflect_word_app in R. rewrite !(reflect_word_ext B _ (reflect_word B (evr _ 0 k) (fund k)) (fund k)) in R; [auto| |];
        intros a; apply reflect_fixed; auto; intros I; apply evr_letter in I; auto; lia || (destruct I as (z & Hz1 & Hz2); lia). }
    destruct (Nat.eq_dec i k) as [->|]; [auto|]. apply IH; [lia| |lia]. rewrite Q in E. apply (act_cancel _ _ (pw k (nth k w' 0))); auto.
    - apply evr_over; [auto|lia].
    - apply evr_over; [auto|lia].
    - apply pw_over; [lia|]. apply V'. lia. }
  intros E. destruct V as [L VS]. destruct V' as [L' VS']. apply (nth_ext w w' 0 0); [lia|]. intros i Hi. apply (X n); auto; lia.
Qed.
Theorem ev_inj w w' : valid w -> valid w' -> ev w ~ ev w' -> w = w'.
Proof. intros V V' E. apply act_inj; auto. intros x j _. apply (reflect_same n B); [apply (gg_cartan _ _ _ _ _ G)|auto]. Qed.
Lemma id_valid : valid (w_id W).
Proof.
  unfold w_id. rewrite rank_ok. split; [apply repeat_length|]. intros i Hi. rewrite nth_repeat. pose proof (g_size _ _ (gg_table _ _ _ _ _ G i Hi)). lia.
Qed.
Lemma id_ev : ev (w_id W) = [].
Proof.
  unfold ev, evr, w_id. rewrite rank_ok. induction (seq 0 n) as [|a l IH]; [auto|]. cbn [map concat]. rewrite nth_repeat. exact IH.
Qed.
End Group.
