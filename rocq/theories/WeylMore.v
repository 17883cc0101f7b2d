(** Weyl groups: descents, lengths, words, longest element, numbering of elements (inner numbering of generators) *)

From Coq Require Import List Arith ZArith Lia Bool Ascii.
From Verif Require Import VecModel VecProofs RunModel RunProofs WeylModel WeylSpec WeylTable WeylCheck WeylExchange WeylGroup WeylOps.
Import ListNotations.
Open Scope nat_scope.

Section More.
Variables (n : nat) (B : nat -> nat -> Z) (off up : nat -> nat) (W : weyl_group).
Hypothesis G : good_group n B off up W.
Notation "u ~ v" := (same n (coxeter B) u v) (at level 70).
Notation size i := (tr_size (trn W i)).
Notation valid := (valid n W).
Notation ev := (ev n off W).
Notation evr := (evr off W).
Notation pw := (pw off W).
Notation L w := (length (ev w)).
Notation rep := (rep n B off W).
Notation nf := (nf W).
Notation ell := (ell n off W).

(** *** has_descent *)
Lemma left_length w s : valid w -> s < n -> let t := nth s (w_min_star W) 0 in
  ell (s :: ev w) + length (evr w t (S s - t)) = ell (s :: evr w t (S s - t)) + L w.
Proof.
  intros V Hs t. pose proof (gg_star _ _ _ _ _ G s Hs) as St. fold t in St.
  assert (O : over n (s :: evr w t (S s - t))) by (apply over_cons; split; [auto|apply (evr_over n B off up W G); auto; lia]).
  pose proof (nf_rep n B off up W G _ O) as R. set (y := nf (s :: evr w t (S s - t))) in *.
  set (f := fun i => if (t <=? i) && (i <? S s) then nth i y 0 else nth i w 0).
  destruct (left_compose n B off up W G w s y (map f (seq 0 n)) V Hs R) as [R2 L2].
  - now rewrite map_length, seq_length.
  - intros i Hi. rewrite (nth_indep _ 0 (f 0)) by (rewrite map_length, seq_length; lia). rewrite map_nth, seq_nth by lia. auto.
  - fold t in L2. rewrite (ell_rep n B off up W G _ _ R2), (ell_rep n B off up W G _ _ R). exact L2.
Qed.
Lemma any_descent_ok i s l : i < n -> (forall g, In g l -> off i + g < n /\ up (off i + g) = up i /\ off (off i + g) = off i) -> forall sw p, rep sw (s :: p) -> L sw = S (length p) ->
  gives (any_descent W (up i) l sw) (fun '(sw', b) =>
    if b : bool then exists a g q, l = a ++ g :: q /\ ell (s :: p ++ map (fun s => off i + s) (a ++ [g])) = length p + length a
    else rep sw' (s :: p ++ map (fun s => off i + s) l) /\ L sw' = S (length p + length l)) sure.
Proof.
  intros Hi. induction l as [|g l IH]; intros H sw p R E; cbn [any_descent].
  - cbn. rewrite app_nil_r. split; [auto|lia].
  - destruct (H g (or_introl eq_refl)) as (A1 & A2 & A3). pose proof (transduce_rep n B off up W G sw _ (off i + g) R A1) as T1.
    rewrite A2, A3 in T1. replace (off i + g - off i) with g in T1 by lia. apply (gives_run _ _ _ _ T1). intros [sw' c] (R' & C & CH). unfold change in CH. cbn [app] in R'.
    destruct (Z.ltb_spec c 0) as [Lc|Lc].
    + cbn [gives]. exists [], g, l. split; [auto|]. cbn [app map length]. rewrite (ell_rep n B off up W G sw' _ R'). lia.
    + eapply gives_imp; [|apply (IH ltac:(intros z I; apply H; now right) sw' (p ++ [off i + g]) R')].
      * intros [sw2 b]. destruct b.
        -- intros (a & g' & q & E1 & E2). exists (g :: a), g', q. split; [now rewrite E1|]. cbn [app map length]. rewrite <- app_assoc in E2. cbn [app] in E2.
           rewrite E2, app_length. cbn [length]. lia.
        -- intros [R2 E2]. cbn [map]. rewrite <- app_assoc in R2. cbn [app] in R2. split; [auto|]. rewrite E2, app_length. cbn [length]. lia.
      * rewrite app_length. cbn [length]. lia.
Qed.
Lemma descent_from_ok w s k : valid w -> s < n -> forall i sw, let t := nth s (w_min_star W) 0 in t <= i -> i + k = S s ->
  rep sw (s :: evr w t (i - t)) -> L sw = S (length (evr w t (i - t))) ->
  gives (descent_from W (up s) w k i sw) (fun b => b = true <-> ell (s :: evr w t (S s - t)) < length (evr w t (S s - t))) sure.
Proof.
  intros V Hs. pose proof V as [VL VS]. pose proof (gg_star _ _ _ _ _ G s Hs) as St. destruct (gg_bounds _ _ _ _ _ G s Hs) as [BD1 BD2]. induction k as [|k IH]; intros i sw t Ht Hk R E; cbn [descent_from].
  - replace i with (S s) in * by lia. cbn [gives]. rewrite (ell_rep n B off up W G _ _ R). split; [discriminate|lia].
  - fold t in St. assert (Hi : i < n) by lia. rewrite (vget_at w i 0) by lia. cbn [bind]. rewrite (tr_get n B off up W G) by lia. cbn [bind].
    set (x := nth i w 0). assert (Hx : x < size i) by now apply VS. rewrite (stack_ok _ _ (gg_table _ _ _ _ _ G i Hi)) by auto. cbn [bind].
    destruct (gg_comp _ _ _ _ _ G s i Hs ltac:(lia)) as [OI UI]. rewrite <- UI.
    apply (gives_run _ _ _ _ (any_descent_ok i s (piece_word (trn W i) x) Hi (fun g I => pw_local n B off up W G i x g Hi Hx I) sw _ R E)).
    assert (SP : evr w t (S i - t) = evr w t (i - t) ++ pw i x).
    { replace (S i - t) with (S (i - t)) by lia. rewrite evr_S. replace (t + (i - t)) with i by lia. auto. }
    intros [sw' b] H. destruct b.
    + cbn [gives]. split; [intros _|auto]. destruct H as (a & g & q & E1 & E2).
      set (x1 := evr w t (i - t)) in *. set (x2 := evr w (S i) (s - i)).
      assert (FULL : evr w t (S s - t) = (x1 ++ map (fun s => off i + s) (a ++ [g])) ++ map (fun s => off i + s) q ++ x2).
      { replace (S s - t) with ((S i - t) + (s - i)) by lia. rewrite evr_app. rewrite SP. replace (t + (S i - t)) with (S i) by lia. fold x2. unfold WeylGroup.pw. rewrite E1.
        rewrite !map_app. cbn [map]. rewrite <- !app_assoc. cbn [app]. auto. }
      assert (OV : over n (evr w t (S s - t))) by (apply (evr_over n B off up W G); auto; lia). rewrite FULL in OV. apply over_app in OV. destruct OV as [O1 O2].
      rewrite FULL. change (s :: (?a ++ ?b) ++ ?c) with ((s :: a ++ b) ++ c).
      pose proof (ell_app n (coxeter B) ell (ell_shortest n B off up W G) (s :: x1 ++ map (fun s => off i + s) (a ++ [g])) (map (fun s => off i + s) q ++ x2)
        ltac:(apply over_cons; auto) O2) as LA.
      pose proof (x_ell_le n B off up W G _ O2) as LB. rewrite E2 in LA. rewrite !app_length, !map_length, !app_length in *. cbn [length] in *. lia.
    + destruct H as [R' E']. rewrite UI. apply (IH (S i) sw'); [lia|lia| |].
      * fold t. rewrite SP. exact R'.
      * fold t. rewrite SP, E'. unfold WeylGroup.pw. now rewrite app_length, map_length.
Qed.
Definition inner_has_descent (s : nat) (w : list nat) : res bool :=
  run sw <- inner_gen W s;
  run start <- vget (w_upper W) s;
  run t <- vget (w_min_star W) s;
  descent_from W start w (S s - t) t sw.
Lemma inner_has_descent_ok w u s : rep w u -> s < n -> gives (inner_has_descent s w) (fun b => b = true <-> ell (s :: u) < ell u) sure.
Proof.
  intros [V E] Hs. unfold inner_has_descent. pose proof (gg_star _ _ _ _ _ G s Hs) as St.
  apply (gives_run _ _ _ _ (rep_inner_gen n B off up W G s Hs)). intros sw [R0 E0]. rewrite (up_get n B off up W G) by auto. cbn [bind].
  rewrite (star_get n B off up W G) by auto. cbn [bind]. set (t := nth s (w_min_star W) 0) in *.
  eapply gives_imp; [|apply (descent_from_ok w s (S s - t) V Hs t sw)]; fold t; [|lia|lia|rewrite Nat.sub_diag; auto|rewrite Nat.sub_diag, E0; auto].
  intros b H. rewrite H. pose proof (left_length w s V Hs) as LL. cbv zeta in LL. fold t in LL.
  assert (Ow : over n (ev w)) by now apply (ev_over n B off up W G).
  rewrite <- (x_ell_same n B off up W G (s :: ev w) (s :: u)); [|now apply over_cons|now apply same_cons].
  rewrite <- (x_ell_same n B off up W G (ev w) u Ow E). rewrite (ell_rep n B off up W G w (ev w)) by now apply rep_ev. lia.
Qed.

(** *** lengths, words *)
Lemma w_length_ok w : valid w -> w_length W w = Ok (L w).
Proof.
  intros V. pose proof V as [VL VS]. assert (X : gives (w_length W w) (fun l => l = L w) sure).
  { unfold w_length. rewrite (rank_ok n B off up W G). apply (gives_range (fun k l => l = length (evr w 0 k))); [auto|].
    intros i l Hi ->. rewrite (tr_get n B off up W G) by lia. cbn [bind]. rewrite (vget_at w i 0) by lia. cbn [bind].
    rewrite (tr_length_ok (trn W i)) by (apply VS; lia). cbn [bind gives]. rewrite evr_S. cbn [Nat.add]. rewrite app_length, (pw_length n B off up W G); auto; [lia|apply VS; lia]. }
  apply gives_sure in X. destruct X as (l & E & ->). auto.
Qed.
Lemma word_ok w : valid w -> length (w_out W) >= n -> word W w = Ok (map (fun i => nth i (w_out W) 0) (ev w)).
Proof.
  intros V Lo. pose proof V as [VL VS]. unfold word. rewrite w_length_ok by auto. cbn [bind]. rewrite (rank_ok n B off up W G).
  assert (X : gives (downto n (fun i acc => run x <- vget w i; run tr <- vget (w_transducer W) i; run l <- letters tr x;
    each_comp l (fun g acc => run o <- output_local_gen W i g; if length acc <? L w then Ok (o :: acc) else Fail Range) acc) [])
    (fun acc => acc = map (fun i => nth i (w_out W) 0) (ev w)) sure).
  { eapply gives_imp; [|apply (gives_down (fun k acc => acc = map (fun i => nth i (w_out W) 0) (evr w k (n - k))))].
    - intros acc. cbv beta. rewrite Nat.sub_0_r. auto.
    - now rewrite Nat.sub_diag.
    - intros i acc Hi ->. rewrite (vget_at w i 0) by lia. cbn [bind]. rewrite (tr_get n B off up W G) by lia. cbn [bind]. set (x := nth i w 0).
      assert (Hx : x < size i) by now apply VS. rewrite (letters_ok _ _ (gg_table _ _ _ _ _ G i Hi)) by auto. cbn [bind].
      replace (n - i) with (1 + (n - S i)) by lia. rewrite evr_app, Nat.add_1_r. assert (Q : evr w i 1 = pw i x) by (rewrite evr_S, Nat.add_0_r; reflexivity). rewrite Q.
      assert (LW : length (pw i x) + length (evr w (S i) (n - S i)) <= L w).
      { unfold WeylGroup.ev. replace (evr w 0 n) with (evr w 0 i ++ evr w i 1 ++ evr w (S i) (n - S i)).
        - rewrite !app_length, Q. lia.
        - replace n with (i + (1 + (n - S i))) at 2 by lia. rewrite !evr_app. cbn [Nat.add]. now rewrite Nat.add_1_r. }
      unfold WeylGroup.pw in LW. rewrite map_length in LW.
      eapply gives_imp; [|apply (gives_each (fun p acc => acc = map (fun i => nth i (w_out W) 0) (map (fun s => off i + s) (rev p) ++ evr w (S i) (n - S i))))].
      + intros a ->. unfold WeylGroup.pw. now rewrite rev_involutive.
      + auto.
      + intros pre g post acc EP ->. destruct (pw_local n B off up W G i x g Hi Hx) as (A1 & _); [apply in_rev; rewrite EP; apply in_app_iff; right; now left|].
        unfold output_local_gen. rewrite (tr_get n B off up W G) by lia. cbn [bind]. rewrite (gg_offset _ _ _ _ _ G i Hi), (Nat.add_comm g).
        rewrite (vget_at _ (off i + g) 0) by lia. cbn [bind]. rewrite map_length, app_length, map_length, rev_length.
        assert (LP : length pre < length (piece_word (trn W i) x)).
        { rewrite <- (rev_length (piece_word (trn W i) x)), EP, app_length. cbn [length]. lia. }
        destruct (Nat.ltb_spec (length pre + length (evr w (S i) (n - S i))) (L w)); [|lia]. cbn [gives].
        rewrite rev_app_distr. reflexivity. }
  apply gives_sure in X. destruct X as (acc & E & ->). rewrite E. cbn [bind]. rewrite map_length, Nat.sub_diag. auto.
Qed.
Lemma piece_first i x : i < n -> 0 < x < size i -> exists u, pw i x = i :: u.
Proof.
  intros Hi. induction x as [x IH] using lt_wf_ind. intros Hx. pose proof (gg_table _ _ _ _ _ G i Hi) as GT. destruct (last_ok _ _ GT x Hx) as [A C].
  pose proof (piece_word_S _ _ GT x Hx) as PS. destruct (Nat.eq_dec (T (trn W i) x (last_letter (trn W i) x)) 0) as [Z|NZ].
  - exists []. rewrite <- (pw_one n B off up W G i Hi). f_equal. destruct (g_shift _ _ GT x _ ltac:(lia) A ltac:(lia)) as (_ & D & _). rewrite Z in D.
    pose proof (gg_limit _ _ _ _ _ G i Hi) as LI. destruct (Nat.lt_ge_cases (S (last_letter (trn W i) x)) (tr_limit (trn W i))) as [LT|GE].
    + rewrite (g_first _ _ GT _ LT) in D. lia.
    + pose proof (g_one _ _ GT) as O. replace (tr_limit (trn W i) - 1) with (last_letter (trn W i) x) in O by lia. lia.
  - destruct (IH _ C ltac:(lia)) as [u Hu]. exists (u ++ [off i + last_letter (trn W i) x]). unfold WeylGroup.pw in *. rewrite PS, map_app, Hu. auto.
Qed.

(** *** the longest element *)
Lemma longest_ok : gives (longest W) (fun w => valid w /\ (forall i, i < n -> nth i w 0 = size i - 1)) sure.
Proof.
  unfold longest. rewrite (rank_ok n B off up W G). destruct (id_valid n B off up W G) as [VL VS].
  eapply gives_imp; [|apply (gives_range (fun k w => length w = n /\ forall i, i < k -> nth i w 0 = size i - 1))].
  - cbn [Nat.add]. intros w [A C]. split; [|auto]. split; [auto|]. intros i Hi. rewrite C by auto. pose proof (size_two n B off up W G i Hi). lia.
  - split; [auto|lia].
  - intros i w Hi [A C]. rewrite (tr_get n B off up W G) by lia. cbn [bind]. rewrite vput_upd by lia. cbn [gives]. split; [rewrite upd_length; lia|].
    intros j Hj. rewrite upd_nth by lia. destruct (Nat.eqb_spec j i) as [Q|Q]; [subst; auto|apply C; lia].
Qed.
Lemma evr_le w w0 k : valid w -> valid w0 -> k <= n -> (forall i, i < n -> nth i w0 0 = size i - 1) ->
  length (evr w 0 k) <= length (evr w0 0 k) /\ (length (evr w 0 k) = length (evr w0 0 k) -> forall i, i < k -> nth i w 0 = nth i w0 0).
Proof.
  intros V V0 Hk E. induction k as [|k IH]; [split; [auto|lia]|]. destruct (IH ltac:(lia)) as [I1 I2]. rewrite !evr_S, !app_length. cbn [Nat.add].
  assert (Hx : nth k w 0 < size k) by (apply V; lia). assert (Hy : nth k w0 0 < size k) by (apply V0; lia).
  rewrite !(pw_length n B off up W G) by (auto; lia). rewrite (E k) by lia.
  assert (Hkn : k < n) by lia. pose proof (gg_table _ _ _ _ _ G k Hkn) as GT.
  assert (C : nth k w 0 = size k - 1 \/ len (trn W k) (nth k w 0) < len (trn W k) (size k - 1)).
  { destruct (Nat.eq_dec (nth k w 0) (size k - 1)); [auto|right]. apply (g_last _ _ GT). lia. }
  destruct C as [C|C].
  - rewrite C. split; [lia|]. intros EQ i Hi. destruct (Nat.eq_dec i k) as [->|]; [now rewrite E|]. apply I2; lia.
  - split; [lia|]. intros EQ. lia.
Qed.
Lemma longest_max w w0 : valid w -> valid w0 -> (forall i, i < n -> nth i w0 0 = size i - 1) -> L w <= L w0 /\ (L w = L w0 -> w = w0).
Proof.
  intros V V0 E. destruct (evr_le w w0 n V V0 (le_n n) E) as [A C]. split; [exact A|]. intros EQ. pose proof V as [VL _]. pose proof V0 as [VL0 _].
  apply (nth_ext w w0 0 0); [lia|]. intros i Hi. apply C; [auto|lia].
Qed.
Lemma max_length_ok w0 : valid w0 -> (forall i, i < n -> nth i w0 0 = size i - 1) -> w_max_length W = Ok (L w0).
Proof.
  intros V E. assert (X : gives (w_max_length W) (fun l => l = L w0) sure).
  { unfold w_max_length. rewrite (rank_ok n B off up W G). apply (gives_range (fun k l => l = length (evr w0 0 k))); [auto|].
    intros i l Hi ->. rewrite (tr_get n B off up W G) by lia. cbn [bind]. assert (Hin : i < n) by lia. pose proof (size_two n B off up W G i Hin) as S2.
    unfold tr_max_length. rewrite (tr_length_ok (trn W i)) by lia. cbn [bind gives]. rewrite evr_S. cbn [Nat.add].
    rewrite app_length, (pw_length n B off up W G); auto; [|apply V; auto]. now rewrite E. }
  apply gives_sure in X. destruct X as (l & EQ & ->). auto.
Qed.

(** *** numbering of the elements *)
Fixpoint radix (k a : nat) (w : list nat) : Z :=
  match k with O => 0%Z | S k => (Z.of_nat (nth a w 0%nat) + Z.of_nat (size a) * radix k (S a) w)%Z end.
Fixpoint sizes (k a : nat) : Z := match k with O => 1%Z | S k => (Z.of_nat (size a) * sizes k (S a))%Z end.
Lemma to_big_int_ok w : valid w -> to_big_int W w = Ok (radix n 0 w).
Proof.
  intros [VL VS]. assert (X : gives (to_big_int W w) (fun u => u = radix n 0 w) sure).
  { unfold to_big_int. rewrite (rank_ok n B off up W G).
    eapply gives_imp; [|apply (gives_down (fun k u => u = radix (n - k) k w))].
    - intros u. cbv beta. rewrite Nat.sub_0_r. auto.
    - rewrite Nat.sub_diag. auto.
    - intros i u Hi ->. rewrite (tr_get n B off up W G) by lia. cbn [bind]. rewrite (vget_at w i 0) by lia. cbn [bind gives].
      replace (n - i) with (S (n - S i)) by lia. cbn [radix]. lia. }
  apply gives_sure in X. destruct X as (l & EQ & ->). auto.
Qed.
Lemma radix_range w : valid w -> forall k a, a + k <= n -> (0 <= radix k a w < sizes k a)%Z.
Proof.
  intros [VL VS]. induction k as [|k IH]; intros a H; cbn [radix sizes]; [lia|]. specialize (IH (S a) ltac:(lia)). pose proof (VS a ltac:(lia)). nia.
Qed.
Lemma radix_ext w w' k : forall a, (forall i, a <= i < a + k -> nth i w 0 = nth i w' 0) -> radix k a w = radix k a w'.
Proof. induction k as [|k IH]; intros a H; cbn [radix]; [auto|]. rewrite H by lia. rewrite (IH (S a)) by (intros i Hi; apply H; lia). auto. Qed.
Lemma to_WeylElt_ok u : (0 <= u < sizes n 0)%Z -> gives (to_WeylElt W u) (fun w => valid w /\ radix n 0 w = u) sure.
Proof.
  intros Hu. unfold to_WeylElt. rewrite (rank_ok n B off up W G). destruct (id_valid n B off up W G) as [VL VS].
  apply (gives_run _ _ (fun '(w, r) => length w = n /\ (forall i, i < n -> nth i w 0 < size i) /\ radix n 0 w = u /\ r = 0%Z)).
  2:{ intros [w r] (A & C & D & _). cbn [gives]. split; [split; auto|auto]. }
  eapply gives_imp; [|apply (gives_range (fun k '(w, r) => length w = n /\ (forall i, i < k -> nth i w 0 < size i) /\ (0 <= r < sizes (n - k) k)%Z /\
    forall z, length z = n -> (forall i, i < k -> nth i z 0 = nth i w 0) -> radix (n - k) k z = r -> radix n 0 z = u))].
  - cbn [Nat.add]. rewrite Nat.sub_diag. intros [w r] (A & C & D & E). cbn [sizes radix] in *. split; [auto|]. split; [auto|]. assert (r = 0%Z) by lia. split; [|auto].
    apply (E w); auto.
  - rewrite Nat.sub_0_r. split; [auto|]. split; [lia|]. split; [auto|]. intros z _ _ E. auto.
  - intros i [w r] Hi (A & C & D & E). rewrite (tr_get n B off up W G) by lia. cbn [bind]. cbv zeta. rewrite vput_upd by lia. cbn [bind gives].
    assert (Hin : i < n) by lia. pose proof (size_two n B off up W G i Hin) as S2. replace (n - i) with (S (n - S i)) in * by lia. cbn [sizes radix] in *.
    set (sz := Z.of_nat (size i)) in *. assert (Hm : (0 <= r mod sz < sz)%Z) by (apply Z.mod_pos_bound; lia).
    split; [rewrite upd_length; lia|]. split.
    + intros j Hj. rewrite upd_nth by lia. destruct (Nat.eqb_spec j i) as [Q|Q]; [subst; lia|apply C; lia].
    + split.
      * split; [apply Z.div_pos; lia|]. apply Z.div_lt_upper_bound; lia.
      * intros z Lz Ez Rz. apply (E z Lz).
        -- intros j Hj. rewrite Ez by lia. rewrite upd_nth by lia. destruct (Nat.eqb_spec j i); [lia|auto].
        -- rewrite Rz, (Ez i) by lia. rewrite upd_nth by lia. rewrite Nat.eqb_refl, Z2Nat.id by lia. rewrite (Z.div_mod r sz) at 3 by lia. ring.
Qed.
Lemma radix_inj w w' : valid w -> valid w' -> radix n 0 w = radix n 0 w' -> w = w'.
Proof.
  intros V V' E. assert (X : forall k a, a + k <= n -> radix k a w = radix k a w' -> forall i, a <= i < a + k -> nth i w 0 = nth i w' 0).
  { induction k as [|k IH]; intros a H EQ i Hi; [lia|]. cbn [radix] in EQ. assert (A1 : nth a w 0 < size a) by (apply V; lia). assert (A2 : nth a w' 0 < size a) by (apply V'; lia).
    assert (Q : nth a w 0 = nth a w' 0 /\ radix k (S a) w = radix k (S a) w'). { destruct (Z.lt_trichotomy (radix k (S a) w) (radix k (S a) w')) as [Q|[Q|Q]]; nia. }
    destruct (Nat.eq_dec i a) as [->|]; [tauto|]. apply (IH (S a)); [lia|tauto|lia]. }
  pose proof V as [VL _]. pose proof V' as [VL' _]. apply (nth_ext w w' 0 0); [lia|]. intros i Hi. apply (X n 0); auto. lia.
Qed.
End More.
