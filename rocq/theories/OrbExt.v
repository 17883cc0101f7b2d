(** Extension of the orbit for a subgroup by coset representatives. *)

From Coq Require Import List Arith ZArith Bool Lia Permutation.
From Verif Require Import VecModel VecProofs RunModel RunProofs MatModel MatSpec MatLin MatProofs LieTypeSpec RootModel RootSpec RootBase RootMath RootForm RootFin RootCo RootUniq
  DatModel DatSpec DatMath DatProofs DatOps OrbModel OrbMath OrbRun.
Import ListNotations.
Local Open Scope Z_scope.

Lemma NoDup_flat_map {S T} (f : S -> list T) (l : list S) : NoDup l -> (forall x, In x l -> NoDup (f x)) -> (forall x y z, In x l -> In y l -> In z (f x) -> In z (f y) -> x = y) -> NoDup (flat_map f l).
Proof.
  induction l as [|x l IH]; intros N H D; [constructor|]. cbn. apply NoDup_cons_iff in N. destruct N as [Nx N]. 
  assert (A : NoDup (f x)) by (apply H; left; reflexivity). assert (B : NoDup (flat_map f l)). { apply IH; [exact N|intros; apply H; right; assumption|intros y z t Hy Hz; apply D; right; assumption]. }
  assert (X : forall t, In t (f x) -> ~ In t (flat_map f l)). { intros t Ht I. apply in_flat_map in I. destruct I as (y & Iy & Ity). apply Nx. rewrite (D x y t); [exact Iy|left; reflexivity|right; exact Iy|exact Ht|exact Ity]. }
  clear IH H D. induction (f x) as [|t m IH]; [exact B|]. apply NoDup_cons_iff in A. cbn. constructor.
  - intros I. apply in_app_or in I. destruct I as [I|I]; [apply A; exact I|apply (X t); [left; reflexivity|exact I]].
  - apply IH; [apply A|]. intros z Iz. apply X. right. exact Iz.
Qed.

Lemma get_left {T} (l m : list T) k x : get l k = Some x -> get (l ++ m) k = Some x.
Proof. intros G. unfold get in *. rewrite nth_error_app1; [exact G|]. apply nth_error_Some. congruence. Qed.

Section Ext.
Variable fits : Z -> bool.
Notation E := (overflows fits).
Variables (r n : nat) (al be : nat -> list Z) (C : nat -> nat -> Z).
Hypothesis La : forall i, (i < n)%nat -> length (al i) = r.
Hypothesis Lb : forall i, (i < n)%nat -> length (be i) = r.
Hypothesis HC : forall i j, (i < n)%nat -> (j < n)%nat -> dot r (al i) (be j) = C i j.
Hypothesis gd : good n C.
Hypothesis gd' : good n (flip C).
Notation act := (act_by r al be).
Notation sv i := (reflect_at r (al i) (be i)).
Notation letters := (Forall (fun i => (i < n)%nat)).
Variable pos : nat -> nat.
Variable gens : list nat.
Hypothesis gn : forall x, In x gens -> (pos x < n)%nat.
Notation inq := (inq pos gens).
Let qn : forall i, inq i -> (i < n)%nat. Proof. exact (inq_n n pos gens gn). Qed.
Variable e : list Z.
Hypothesis Le : length e = r.
Hypothesis De : qdom r be inq e.

(** the words of the elements of a linked list *)
Definition wording (l : list oelem) (ws : list (list nat)) (m : nat) : Prop := length ws = m /\
  forall k, (k < m)%nat -> exists w y, get ws k = Some w /\ get l k = Some y /\ Forall inq w /\ oe_v y = act w e /\
    (k = 0%nat -> w = []) /\ ((1 <= k)%nat -> exists x p w', oe_from y = Some (x, p) /\ (p < k)%nat /\ In x gens /\ get ws p = Some w' /\ w = pos x :: w').
Lemma words_exist l : linked r al be pos gens e l -> forall m, (m <= length l)%nat -> exists ws, wording l ws m.
Proof.
  intros ((y0 & G0 & E0) & Lk). induction m as [|m IH]; intros Hm; [exists []; split; [reflexivity|intros; lia]|].
  destruct (IH ltac:(lia)) as (ws & Lw & H).
  assert (X : exists w y, get l m = Some y /\ Forall inq w /\ oe_v y = act w e /\ (m = 0%nat -> w = []) /\ ((1 <= m)%nat -> exists x p w', oe_from y = Some (x, p) /\ (p < m)%nat /\ In x gens /\ get ws p = Some w' /\ w = pos x :: w')).
  { destruct (Nat.eq_dec m 0) as [Q|Q].
    - exists [], y0. rewrite Q. split; [exact G0|]. split; [constructor|]. split; [exact E0|]. split; [reflexivity|intros; lia].
    - destruct (Lk m ltac:(lia)) as (x & p & y & Hp & Ix & Gp & Gm). destruct (H p Hp) as (w' & y' & Gw & Gy & Fw & Ev & _). replace y' with y in Ev by congruence. exists (pos x :: w'), (mk_oe (sv (pos x) (oe_v y)) (Some (x, p))).
      split; [exact Gm|]. split; [constructor; [exists x; auto|exact Fw]|]. split; [cbn; rewrite Ev; reflexivity|]. split; [intros; lia|]. intros _. exists x, p, w'. cbn. auto. }
  destruct X as (w & y & Gm & Fw & Ev & Z0 & Z1). exists (ws ++ [w]). split; [rewrite app_length; cbn; lia|]. intros k Hk. destruct (Nat.eq_dec k m) as [Q|Q].
  - subst k. exists w, y. split; [rewrite get_app, Lw, Nat.eqb_refl; reflexivity|]. split; [exact Gm|]. split; [exact Fw|]. split; [exact Ev|]. split; [exact Z0|]. intros H1. destruct (Z1 H1) as (x & p & w' & A1 & A2 & A3 & A4 & A5). exists x, p, w'. split; [exact A1|]. split; [exact A2|]. split; [exact A3|]. split; [apply get_left; exact A4|exact A5].
  - destruct (H k ltac:(lia)) as (w1 & y1 & A1 & A2 & A3 & A4 & A5 & A6). exists w1, y1. split; [apply get_left; exact A1|]. split; [exact A2|]. split; [exact A3|]. split; [exact A4|]. split; [exact A5|]. intros H1. destruct (A6 H1) as (x & p & w' & B1 & B2 & B3 & B4 & B5). exists x, p, w'. split; [exact B1|]. split; [exact B2|]. split; [exact B3|]. split; [apply get_left; exact B4|exact B5].
Qed.
Variable refl : nat -> list Z -> res (list Z).
Hypothesis refl_ok : forall x v, In x gens -> length v = r -> gives (refl x v) (eq (sv (pos x) v)) E.
Lemma block_run l ws x : wording l ws (length l) -> (1 <= length l)%nat -> length x = r -> gives (orbit_block refl l x) (eq (map (fun w => act w x) ws)) E.
Proof.
  intros (Lw & H) Hl Lx. unfold orbit_block.
  eapply gives_mono; [apply (gives_upto (fun k ref => ref = map (fun w => act w x) (firstn k ws)))|].
  - destruct (H 0%nat ltac:(lia)) as (w & y & Gw & _ & _ & _ & Z0 & _). rewrite (firstn_get ws 0 w Gw). cbn. rewrite (Z0 eq_refl). reflexivity.
  - intros k ref Hk ->. destruct (H k ltac:(lia)) as (w & y & Gw & Gy & Fw & Ev & _ & Z1). rewrite (vget_ok _ _ _ Gy). cbn [bind]. destruct (Z1 ltac:(lia)) as (g & p & w' & A1 & A2 & A3 & A4 & A5). rewrite A1.
    assert (Gp : get (map (fun w => act w x) (firstn k ws)) p = Some (act w' x)). { unfold get. apply map_nth_error. unfold get in A4. rewrite <- (firstn_skipn k ws) in A4. rewrite nth_error_app1 in A4; [exact A4|]. rewrite firstn_length. lia. }
    rewrite (vget_ok _ _ _ Gp). cbn [bind]. eapply gives_bind; [apply refl_ok; [exact A3|apply act_length; exact Lx]|]. intros z <-. apply gives_ok. rewrite (firstn_get ws k w Gw), map_app. cbn [map]. rewrite A5. reflexivity.
  - cbv beta. intros ref ->. replace (1 + (length l - 1))%nat with (length ws) by lia. rewrite firstn_all. reflexivity.
Qed.
Lemma extend_run l ws O : wording l ws (length l) -> (1 <= length l)%nat -> Forall (fun x => length x = r) O -> gives (extend_by refl l O) (eq (flat_map (fun x => map (fun w => act w x) ws) O)) E.
Proof.
  intros W Hl F. unfold extend_by. apply (gives_upto0 (fun k out => out = flat_map (fun x => map (fun w => act w x) ws) (firstn k O))).
  - reflexivity.
  - intros k out Hk ->. destruct (get_some O k Hk) as [x G]. rewrite (vget_ok _ _ _ G). cbn [bind]. eapply gives_bind; [apply (block_run l ws x W Hl)|].
    + rewrite Forall_forall in F. apply F. apply (get_In O k). exact G.
    + intros b <-. apply gives_ok. rewrite (firstn_get O k x G), flat_map_app. cbn. rewrite app_nil_r. reflexivity.
  - intros out ->. rewrite firstn_all. reflexivity.
Qed.

(** the subgroup: letters in [Qj] fix [e], and [v] is fixed only by letters in [Qj] *)
Variable Qj : nat -> Prop.
Hypothesis Qin : forall k, Qj k -> inq k.
Hypothesis Qe : forall k, inq k -> dot r e (be k) = 0 -> Qj k.
Hypothesis eQ : forall k, Qj k -> dot r e (be k) = 0.
Variable v : list Z.
Hypothesis Lv : length v = r.
Hypothesis Dv : qdom r be inq v.
Hypothesis Sv : forall k, inq k -> dot r v (be k) = 0 -> Qj k.
Lemma qj_in w : Forall Qj w -> Forall inq w. Proof. intros F. eapply Forall_impl; [|exact F]. exact Qin. Qed.
Lemma in_letters w : Forall inq w -> letters w. Proof. intros F. eapply Forall_impl; [|exact F]. exact qn. Qed.
Lemma fix_e w : Forall Qj w -> act w e = e.
Proof.
  intros F. induction F as [|k w Hk F IH]; [reflexivity|]. cbn [act_by fold_right]. fold (act w e). rewrite IH. unfold reflect_at. rewrite (eQ k Hk). unfold away. apply vec_ext; [rewrite map_length, seq_length; lia|]. intros q Hq. rewrite map_length, seq_length in Hq. rewrite co_map by exact Hq. lia.
Qed.
Lemma rev_in w : Forall inq w -> Forall inq (rev w). Proof. apply Forall_rev. Qed.
Let stab := stabiliser r n al be C La Lb HC gd gd' inq qn.
Let rva := rev_act r n al be C La HC gd.
Let arv := act_rev r n al be C La HC gd.
Lemma act_len w x : length x = r -> length (act w x) = r. Proof. apply act_length. Qed.
Lemma cosets_apart w1 w2 u1 u2 : Forall inq w1 -> Forall inq w2 -> Forall Qj u1 -> Forall Qj u2 -> act w1 (act u1 v) = act w2 (act u2 v) -> act w1 e = act w2 e.
Proof.
  intros F1 F2 G1 G2 H. pose proof (in_letters _ F1) as W1. pose proof (in_letters _ F2) as W2. pose proof (in_letters _ (qj_in _ G1)) as V1. pose proof (in_letters _ (qj_in _ G2)) as V2.
  assert (X : act (rev u1 ++ rev w1 ++ w2 ++ u2) v = v). { rewrite !act_app, <- H. rewrite rva by (try exact W1; apply act_len; exact Lv). apply rva; assumption. }
  destruct (stab (rev u1 ++ rev w1 ++ w2 ++ u2) v) as (z & Fz & Az); [|exact Lv|exact Dv|exact X|].
  { apply Forall_app. split; [apply rev_in, qj_in, G1|]. apply Forall_app. split; [apply rev_in, F1|]. apply Forall_app. split; [exact F2|apply qj_in, G2]. }
  assert (Gz : Forall Qj z) by (eapply Forall_impl; [|exact Fz]; intros k [A B]; apply Sv; assumption).
  pose proof (Az e Le) as Y. rewrite (fix_e z Gz), !act_app, (fix_e u2 G2) in Y.
  assert (Y2 : act u1 (act (rev u1) (act (rev w1) (act w2 e))) = act u1 e) by (rewrite Y; reflexivity). rewrite arv in Y2 by (try exact V1; apply act_len, act_len, Le). rewrite (fix_e u1 G1) in Y2.
  rewrite <- (arv w1 (act w2 e) W1 (act_len _ _ Le)). rewrite Y2. reflexivity.
Qed.
Lemma extended_ok l ws O : complete r al be pos gens e l -> wording l ws (length l) -> NoDup O -> (forall x, In x O <-> exists u, Forall Qj u /\ x = act u v) ->
  let O' := flat_map (fun x => map (fun w => act w x) ws) O in NoDup O' /\ forall x, In x O' <-> exists u, Forall inq u /\ x = act u v.
Proof.
  intros (Lk & Nd & All) (Lw & W) NO IO O'.
  assert (Wf : forall w, In w ws -> Forall inq w). { intros w I. destruct (In_get ws w I) as [k G]. pose proof (get_lt ws k w G) as Hk. destruct (W k ltac:(lia)) as (w' & y & Gw & _ & Fw & _). congruence. }
  assert (Wi : forall w w', In w ws -> In w' ws -> act w e = act w' e -> w = w').
  { intros w w' I I' H. destruct (In_get ws w I) as [k G]. destruct (In_get ws w' I') as [k' G']. destruct (W k ltac:(apply get_lt in G; lia)) as (w1 & y1 & A1 & A2 & _ & A4 & _). destruct (W k' ltac:(apply get_lt in G'; lia)) as (w2 & y2 & B1 & B2 & _ & B4 & _).
    assert (k = k'); [|subst k'; congruence]. apply (proj1 (NoDup_nth_error (vecs l)) Nd); [unfold vecs; rewrite map_length; apply get_lt in A2; exact A2|].
    unfold vecs. unfold get in A2, B2. rewrite (map_nth_error oe_v k l A2), (map_nth_error oe_v k' l B2). f_equal. replace w1 with w in A4 by congruence. replace w2 with w' in B4 by congruence. congruence. }
  assert (Nw : NoDup ws).
  { apply NoDup_nth_error. intros k k' Hk Heq. destruct (W k ltac:(lia)) as (w1 & y1 & A1 & A2 & _ & A4 & _). fold (get ws k) in Heq. rewrite A1 in Heq. assert (Hk' : (k' < length ws)%nat) by (apply nth_error_Some; rewrite <- Heq; discriminate).
    destruct (W k' ltac:(lia)) as (w2 & y2 & B1 & B2 & _ & B4 & _). assert (w2 = w1) by (unfold get in B1; congruence). subst w2. apply (proj1 (NoDup_nth_error (vecs l)) Nd); [unfold vecs; rewrite map_length; apply get_lt in A2; exact A2|].
    unfold vecs. unfold get in A2, B2. rewrite (map_nth_error oe_v k l A2), (map_nth_error oe_v k' l B2). congruence. }
  split.
  - apply NoDup_flat_map; [exact NO| |].
    + intros x I. apply IO in I. destruct I as (u & Fu & ->). assert (Inj : forall w w', In w ws -> In w' ws -> act w (act u v) = act w' (act u v) -> w = w') by (intros w w' I I' H; apply Wi; [exact I|exact I'|apply (cosets_apart w w' u u); auto]).
      clear - Nw Inj. induction Nw as [|w ws Nin Nw IH]; [constructor|]. cbn. constructor.
      * intros I. apply in_map_iff in I. destruct I as (w' & H & I'). apply Nin. rewrite (Inj w w'); [exact I'|left; reflexivity|right; exact I'|congruence].
      * apply IH. intros a b Ia Ib. apply Inj; right; assumption.
    + intros x y z Ix Iy Hx Hy. apply IO in Ix. apply IO in Iy. destruct Ix as (u1 & F1 & ->). destruct Iy as (u2 & F2 & ->). apply in_map_iff in Hx. apply in_map_iff in Hy. destruct Hx as (w1 & H1 & I1). destruct Hy as (w2 & H2 & I2).
      assert (w1 = w2) by (apply Wi; [exact I1|exact I2|apply (cosets_apart w1 w2 u1 u2); auto; congruence]). subst w2. pose proof (in_letters _ (Wf _ I1)) as W1. rewrite <- (rva w1 (act u1 v) W1 (act_len _ _ Lv)), H1, <- H2. apply rva; [exact W1|apply act_len, Lv].
  - intros x. unfold O'. rewrite in_flat_map. split.
    + intros (y & Iy & Ix). apply IO in Iy. destruct Iy as (u & Fu & ->). apply in_map_iff in Ix. destruct Ix as (w & <- & Iw). exists (w ++ u). split; [apply Forall_app; split; [apply Wf; exact Iw|apply qj_in, Fu]|]. symmetry. apply act_app.
    + intros (u & Fu & ->). pose proof (in_letters _ Fu) as Wu. assert (Ie : In (act u e) (vecs l)) by (apply All; exists u; auto). apply In_vecs in Ie. destruct Ie as (k & y & Gk & Ey). destruct (W k (get_lt l k y Gk)) as (w & y' & Gw & Gy & Fw & Ev & _). replace y' with y in Ev by congruence. pose proof (in_letters _ Fw) as Ww.
      assert (X : act (rev w ++ u) e = e). { rewrite act_app, <- Ey, Ev. apply rva; assumption. }
      destruct (stab (rev w ++ u) e) as (z & Fz & Az); [apply Forall_app; split; [apply rev_in; exact Fw|exact Fu]|exact Le|exact De|exact X|].
      assert (Gz : Forall Qj z) by (eapply Forall_impl; [|exact Fz]; intros q [A B]; apply Qe; assumption).
      exists (act z v). split; [apply IO; exists z; auto|]. apply in_map_iff. exists w. split; [|apply (get_In ws k); exact Gw]. rewrite <- (Az v Lv), act_app. apply arv; [exact Ww|apply act_len, Lv].
Qed.
End Ext.
