(** Descending from a positive root to a simple root. *)

From Coq Require Import List Arith ZArith Bool Lia.
From Verif Require Import VecModel VecProofs RunModel RunProofs MatModel MatSpec MatLin LatModel LieTypeModel LieTypeSpec DynkinModel DynBits
  RootModel RootSpec RootBase RootMath RootForm RootFin RootCo RootAcc RootSys RootUniq RootExt RootTop RootProps DatModel DatSpec DatMath DfModel SsModel.
Import ListNotations.
Local Open Scope Z_scope.

Lemma vput_mid {T} (u v : list T) x y : vput (u ++ x :: v) (length u) y = Ok (u ++ y :: v).
Proof. unfold vput. induction u as [|z u IH]; cbn; [reflexivity|]. destruct (put (u ++ x :: v) (length u) y); [|discriminate]. injection IH as ->. reflexivity. Qed.
Lemma vput_mid' {T} (u v : list T) x y k : k = length u -> vput (u ++ x :: v) k y = Ok (u ++ y :: v).
Proof. intros ->. apply vput_mid. Qed.

Section Path.
Variables (n : nat) (f : nat -> nat -> Z) (c : matrix Z) (pc : bool) (s : rootsys).
Hypothesis bt : built n f c pc s.
Notation np := (num_pos s).
Notation rt := (root_at s).
Notation crt := (coroot_at s).
Let n32 : (n <= 32)%nat := proj1 bt.
Let ft : finite_type n f := proj1 (proj2 bt).
Let mc : is_mx c n n f := proj1 (proj2 (proj2 bt)).
Let made : root_system c pc = Ok s := proj2 (proj2 (proj2 bt)).
Let gd : good n f := proj1 (top_good n f ft).

Lemma descent_simple i : (i < n)%nat -> find_descent s (np + i) = Ok i.
Proof.
  intros Hi. destruct (top_simple n f c pc s n32 ft mc made i Hi) as (Hl & Er & _). unfold find_descent.
  destruct (top_descents n f c pc s n32 ft mc made _ Hl) as (d & e & -> & _ & D32 & _ & Hd & _). cbn [bind]. f_equal.
  assert (M : mem d i = true). { apply Hd. split; [exact Hi|]. rewrite Er, pair_basis by exact Hi. rewrite (proj1 (proj1 gd)) by exact Hi. lia. }
  destruct (nfirst_ok d i D32 M) as (M1 & _ & _). apply Hd in M1 as [L1 P1]. rewrite Er, pair_basis in P1 by exact Hi.
  destruct (Nat.eq_dec (nfirst d) i) as [E|N]; [exact E|]. pose proof (proj1 (proj2 (proj1 gd)) i (nfirst d) Hi L1 (fun Q => N (eq_sym Q))). lia.
Qed.
Lemma descent_step a : (np + n <= a < num_roots s)%nat -> exists i b, find_descent s a = Ok i /\ (i < n)%nat /\ simple_reflected s i a = Ok b /\ (np <= b < a)%nat /\
  rt a = sreflect n f i (rt b) /\ crt a = sreflect n (flip f) i (crt b).
Proof.
  intros Ha. assert (n1' : (1 <= n <= 32)%nat) by (apply (top_some n f c pc s n32 mc made); lia). destruct (top_system n f c pc s n32 ft mc made) as (Y & _ & _).
  destruct (pos_info n f s n1' Y a ltac:(unfold num_roots in *; lia)) as (x & G & _).
  destruct (down_step n f s n1' gd (proj2 (top_good n f ft)) Y a x ltac:(unfold num_roots in *; lia) G) as (Hi & b & Eb & Hb & Er & Ec). exists (nfirst (r_desc x)), b.
  assert (Hb' : (b < num_roots s)%nat) by lia.
  split. { unfold find_descent, descent_set. unfold abs_nr, is_pos. rewrite (proj2 (Nat.leb_le np a)) by lia. rewrite (vget_ok _ _ _ G). reflexivity. }
  split; [exact Hi|]. split; [exact Eb|]. split; [lia|]. rewrite (proj2 (at_rt n f c pc s n32 ft mc made a ltac:(lia))), (proj2 (at_rt n f c pc s n32 ft mc made b Hb')), (proj2 (at_crt n f c pc s n32 ft mc made a ltac:(lia))), (proj2 (at_crt n f c pc s n32 ft mc made b Hb')). split; assumption.
Qed.
(** the letters used, the first one first, and the final generator *)
Inductive path : nat -> list nat -> nat -> Prop :=
| path_end i : (i < n)%nat -> path (np + i) [] i
| path_step a i b w g : (np + n <= a)%nat -> find_descent s a = Ok i -> (i < n)%nat -> simple_reflected s i a = Ok b -> (np <= b < a)%nat ->
    rt a = sreflect n f i (rt b) -> crt a = sreflect n (flip f) i (crt b) -> path b w g -> path a (i :: w) g.
Lemma path_exists a : (np <= a < num_roots s)%nat -> exists w g, path a w g.
Proof.
  induction a as [a IH] using lt_wf_ind. intros Ha. destruct (le_lt_dec (np + n) a) as [L|L].
  - destruct (descent_step a ltac:(lia)) as (i & b & E1 & Hi & E2 & Hb & E3 & E4). destruct (IH b ltac:(lia) ltac:(lia)) as (w & g & P). exists (i :: w), g. econstructor; eassumption.
  - exists [], (a - np)%nat. replace a with (np + (a - np))%nat at 1 by lia. constructor. lia.
Qed.
Lemma path_letters a w g : path a w g -> Forall (fun i => (i < n)%nat) w /\ (g < n)%nat /\ (np + length w <= a)%nat.
Proof. induction 1 as [i Hi|a i b w g L1 E1 Hi E2 Hb E3 E4 P (F & G & Lw)]; [split; [constructor|split; cbn; lia]|]. split; [constructor; assumption|]. cbn [length]. split; [exact G|lia]. Qed.
Lemma path_word a w g : path a w g -> rt a = word_act n f w (basis n g) /\ crt a = word_act n (flip f) w (basis n g).
Proof.
  induction 1 as [i Hi|a i b w g L1 E1 Hi E2 Hb E3 E4 P (R & C)].
  - destruct (top_simple n f c pc s n32 ft mc made i Hi) as (_ & -> & ->). split; reflexivity.
  - rewrite E3, E4, R, C. split; reflexivity.
Qed.
Lemma count_path a w g : path a w g -> forall fuel k, (length w < fuel)%nat -> count_steps fuel s a k = Ok (g, (k + length w)%nat).
Proof.
  induction 1 as [i Hi|a i b w g L1 E1 Hi E2 Hb E3 E4 P IH]; intros fuel k L; (destruct fuel as [|fuel]; [cbn in L; lia|]); cbn [count_steps length] in *.
  - rewrite descent_simple by exact Hi. cbn [bind]. unfold pos_nr. rewrite Nat.eqb_refl. do 2 f_equal. lia.
  - rewrite E1. cbn [bind]. unfold pos_nr. destruct (Nat.eqb_spec a (np + i)); [lia|]. rewrite E2. cbn [bind]. rewrite IH by lia. do 2 f_equal. lia.
Qed.
Lemma repeat_snoc {T} (x : T) k : repeat x (S k) = repeat x k ++ [x].
Proof. change (x :: repeat x k = repeat x k ++ [x]). apply repeat_cons. Qed.
Lemma words_path a w g : (a < num_roots s)%nat -> path a w g -> conjugate_words s a = Ok (g, rev w, w ++ [g] ++ rev w).
Proof.
  intros Ha P. unfold conjugate_words. pose proof (path_letters a w g P) as (_ & _ & Lw). rewrite (count_path a w g P) by (unfold num_roots in *; lia). cbn [bind]. rewrite Nat.add_0_l.
  replace (2 * length w + 1)%nat with (length w + S (length w))%nat by lia. rewrite repeat_app. cbn [repeat]. rewrite vput_mid' by (rewrite repeat_length; reflexivity). cbn [bind].
  match goal with |- bind ?m _ = _ => assert (Q : gives m (fun '(_, u, r) => u = rev w /\ r = w ++ [g] ++ rev w) none) end.
  { apply (gives_downto (fun k '(b, u', r) => exists u v, w = u ++ v /\ length v = k /\ path b v g /\ u' = repeat 0%nat k ++ rev u /\ r = u ++ repeat 0%nat k ++ g :: repeat 0%nat k ++ rev u)).
    - exists [], w. split; [reflexivity|]. split; [reflexivity|]. split; [exact P|]. cbn. rewrite !app_nil_r. split; reflexivity.
    - intros k [[b u'] r] Hk (u & v & Ew & Lv & Pv & -> & ->). inversion Pv as [|x i y t h L1 E1 Hi E2 Hb E3 E4 Py]; subst; [discriminate Lv|]. cbn [length] in Lv. injection Lv as Lv. rewrite app_length in Hk |- *. cbn [length] in *.
      rewrite E1. cbn [bind]. rewrite repeat_snoc, <- app_assoc. cbn [app].
      rewrite (vput_mid' (repeat 0%nat k)) by (rewrite repeat_length; reflexivity). cbn [bind].
      rewrite <- app_assoc. cbn [app].
      assert (Eq1 : repeat 0%nat k ++ 0%nat :: g :: (repeat 0%nat k ++ [0%nat]) ++ rev u = 0%nat :: repeat 0%nat k ++ g :: repeat 0%nat k ++ 0%nat :: rev u).
      { rewrite <- app_assoc. cbn [app]. change (0%nat :: g :: repeat 0%nat k ++ 0%nat :: rev u) with ([0%nat] ++ g :: repeat 0%nat k ++ 0%nat :: rev u). rewrite app_assoc, <- repeat_cons. reflexivity. }
      assert (Eq2 : (repeat 0%nat k ++ 0%nat :: rev u) = (repeat 0%nat k ++ [0%nat]) ++ rev u) by (rewrite <- app_assoc; reflexivity).
      rewrite ?Eq2. rewrite Eq1. rewrite (vput_mid' u) by lia. cbn [bind].
      replace (u ++ i :: repeat 0%nat k ++ g :: repeat 0%nat k ++ 0%nat :: rev u) with ((u ++ i :: repeat 0%nat k ++ g :: repeat 0%nat k) ++ 0%nat :: rev u) by (rewrite <- !app_assoc; cbn [app]; rewrite <- app_assoc; reflexivity).
      rewrite vput_mid' by (rewrite app_length; cbn [length]; rewrite app_length; cbn [length]; rewrite !repeat_length; lia). cbn [bind]. rewrite E2. cbn [bind gives].
      exists (u ++ [i]), t. split; [rewrite <- app_assoc; reflexivity|]. split; [exact Lv|]. split; [exact Py|]. rewrite rev_app_distr. cbn [rev app]. split; [reflexivity|].
      rewrite <- !app_assoc. cbn [app]. rewrite <- app_assoc. reflexivity.
    - intros [[b u'] r] (u & v & -> & Lv & Pv & -> & ->). destruct v; [|discriminate]. rewrite app_nil_r. cbn. split; reflexivity. }
  apply gives_none in Q as ([[b u'] r] & -> & -> & ->). reflexivity.
Qed.
End Path.
