(** Twisted involutions fixed by the twist: lowering by an orbit of generators *)

From Coq Require Import List Arith ZArith Lia Bool Morphisms Setoid.
From Verif Require Import MatSpec MatLin RunModel WeylModel WeylSpec TwistSpec WeylTable WeylCheck WeylExchange WeylGroup WeylSign TwistWords.
Import ListNotations.
Open Scope nat_scope.

Section Orbit.
Variables (n : nat) (A : nat -> nat -> Z) (f : list nat).
Hypothesis C : Cartan_like n A.
Hypothesis TW : twist_of n A f.
Notation "u ~ v" := (same n (coxeter A) u v) (at level 70).
Notation d u := (relabel f u).
Notation fs s := (nth s f 0).
Variable eqw : list nat -> list nat -> bool.
Hypothesis EQW : forall u v, over n u -> over n v -> (eqw u v = true <-> same n (coxeter A) u v).
Variable ell : list nat -> nat.
Hypothesis ELL : forall u, over n u -> shortest n (coxeter A) u (ell u).
Notation E_same := (ell_same n (coxeter A) ell ELL).
Notation E_cons := (ell_cons n (coxeter A) ell ELL).
Notation E_snoc := (ell_snoc n (coxeter A) (cox_symm A) ell ELL).
Notation E_rev := (ell_rev n (coxeter A) (cox_symm A) ell ELL).
Notation E_le := (ell_le n (coxeter A) ell ELL).
Notation E_word := (ell_word n (coxeter A) ell ELL).
Notation TI u := (twisted_involution n A f u).
Notation comm := (comm n A f).

Local Instance same_equiv : Equivalence (same n (coxeter A)).
Proof. split; [intros u; apply same_refl|intros u v; apply same_sym|intros u v w; apply same_trans]. Qed.
Local Instance cons_same : Proper (eq ==> same n (coxeter A) ==> same n (coxeter A)) cons.
Proof. intros s ? <- u v E. now apply same_cons. Qed.
Local Instance app_same : Proper (same n (coxeter A) ==> same n (coxeter A) ==> same n (coxeter A)) (@app nat).
Proof. intros u u' E v v' E'. now apply same_app. Qed.
Lemma undo' s u : s < n -> s :: s :: u ~ u.
Proof. apply undo. Qed.
Lemma ellc s u v : s < n -> over n u -> u ~ v -> ell (s :: u) = ell (s :: v).
Proof. intros Hs O E. apply E_same; [now apply over_cons|now rewrite E]. Qed.

(** *** two generators that are not descents *)
Lemma both_positive s t v k : s < n -> t < n -> s <> t -> over n v -> ell v < ell (s :: v) -> ell v < ell (t :: v) -> k < coxeter A s t ->
  ell (alt k t s ++ v) < ell (s :: alt k t s ++ v).
Proof.
  intros Hs Ht N Ov U1 U2 K. assert (O : over n (alt k t s ++ v)) by (apply over_app; split; [now apply over_alt|auto]).
  destruct (E_cons s _ Hs O) as [E|E]; [lia|exfalso].
  destruct (sign_negative n A C ell ELL _ s Hs O ltac:(lia)) as [_ (j & Hj & P)].
  rewrite rw_app in P. destruct C as [_ F]. pose proof (swing_positive _ _ k (F s t Hs Ht N) K) as SW.
  pose proof (fun i Hi => rw_swing n A C k s t 1 0 i Hs Ht N Hi) as RS. destruct (swing k (A s t) (A t s) 1 0) as [x y]. destruct SW as [X0 Y0].
  rewrite (rw_ext n A v Ov _ (two s t x y)) in P; [|intros i Hi; rewrite <- RS by auto|auto].
  - unfold two in P. rewrite (rw_lin n A v Ov) in P by auto. destruct (sign_positive n A C ell ELL v s Hs Ov U1) as [P1 _]. destruct (sign_positive n A C ell ELL v t Ht Ov U2) as [P2 _].
    specialize (P1 j Hj). specialize (P2 j Hj). nia.
  - apply rw_ext; [now apply over_alt| |auto]. intros i' Hi'. unfold two. ring.
Qed.
Lemma min_add k : forall s t v, s < n -> t < n -> s <> t -> over n v -> ell v < ell (s :: v) -> ell v < ell (t :: v) -> k <= coxeter A s t ->
  ell (alt k s t ++ v) = k + ell v.
Proof.
  induction k as [|k IH]; intros s t v Hs Ht N Ov U1 U2 K; [auto|]. cbn [alt app].
  pose proof (both_positive s t v k Hs Ht N Ov U1 U2 K) as B. rewrite cox_symm in K. specialize (IH t s v Ht Hs (not_eq_sym N) Ov U2 U1 ltac:(lia)).
  assert (O : over n (alt k t s ++ v)) by (apply over_app; split; [now apply over_alt|auto]). destruct (E_cons s _ Hs O); lia.
Qed.
Lemma both_descents s t u : s < n -> t < n -> s <> t -> over n u -> ell (s :: u) < ell u -> ell (t :: u) < ell u ->
  exists v, over n v /\ u ~ alt (coxeter A s t) s t ++ v /\ ell u = coxeter A s t + ell v /\ ell v < ell (s :: v) /\ ell v < ell (t :: v).
Proof.
  intros Hs Ht N O D1 D2. assert (O1 : over n (s :: u)) by now apply over_cons.
  assert (R : ell (s :: s :: u) = ell u) by (apply E_same; [now apply over_cons|now apply undo]).
  destruct (strip n A ell ELL (ell (s :: u)) s t (s :: u) Hs Ht O1 (le_n _) ltac:(lia)) as (k & v & Ov & S1 & L & U1 & U2 & _).
  assert (SU : u ~ alt (S k) s t ++ v) by (cbn [alt app]; rewrite <- S1; symmetry; now apply undo).
  assert (LU : ell u = S k + ell v) by (destruct (E_cons s u Hs O); lia).
  exists v. split; [auto|]. assert (K1 : ~ S k < coxeter A s t).
  { intros K. rewrite cox_symm in K. pose proof (both_positive t s v (S k) Ht Hs (not_eq_sym N) Ov U2 U1 K) as B.
    assert (OA : over n (alt (S k) s t ++ v)) by (apply over_app; split; [now apply over_alt|auto]).
    rewrite <- (E_same u _ O SU) in B. rewrite <- (ellc t u _ Ht O SU) in B. lia. }
  assert (K2 : ~ coxeter A s t < S k).
  { intros K. assert (AS : forall a b x y, exists z, alt (a + b) x y = alt a x y ++ z /\ length z = b /\ (x < n -> y < n -> over n z)).
    { induction a as [|a IHa]; intros b x0 y0.
      - exists (alt b x0 y0). split; [auto|]. split; [apply alt_length|]. intros. now apply over_alt.
      - destruct (IHa b y0 x0) as (z & Z1 & Z2 & Z3). exists z. cbn [Nat.add alt app]. rewrite Z1. auto. }
    destruct (AS (coxeter A s t) (k - coxeter A s t) t s) as (z & Z1 & Z2 & Z3). specialize (Z3 Ht Hs). replace (coxeter A s t + (k - coxeter A s t)) with k in Z1 by lia.
    destruct (coxeter A s t) as [|M'] eqn:EM.
    { destruct C as [_ F]. pose proof (F s t Hs Ht N) as P. unfold coxeter in EM. unfold finite_pair in P. cbn in P.
      destruct P as [P|[P|[P|[P|[P|[P|[]]]]]]]; injection P as P1 P2; rewrite <- P1, <- P2 in EM; cbn in EM; lia. }
    assert (X : u ~ alt M' t s ++ z ++ v).
    { rewrite SU. cbn [alt app]. rewrite Z1, <- app_assoc. pose proof (same_braid n (coxeter A) t s Ht Hs (not_eq_sym N)) as B. rewrite cox_symm, EM in B.
      rewrite B. cbn [alt app]. now apply undo. }
    rewrite (E_same u _ O X) in LU.
    pose proof (ell_app n _ ell ELL (alt M' t s ++ z) v ltac:(apply over_app; split; [now apply over_alt|auto]) Ov) as Q. rewrite <- app_assoc in Q.
    pose proof (E_le (alt M' t s ++ z) ltac:(apply over_app; split; [now apply over_alt|auto])) as Q2. rewrite app_length, alt_length in Q2. lia. }
  replace (coxeter A s t) with (S k) by lia. auto.
Qed.

(** *** elements fixed by the twist *)
Definition fixed (u : list nat) : Prop := TI u /\ d u ~ u.
Lemma fixed_rev u : fixed u -> rev u ~ u.
Proof. intros [T F]. rewrite <- (TI_rev n A f u T). exact F. Qed.
Lemma fixed_over u : fixed u -> over n u.
Proof. intros [[O _] _]. auto. Qed.
Lemma d_sides s u : s < n -> over n u -> d u ~ u -> ell (fs s :: u) = ell (s :: u).
Proof.
  intros Hs O F. rewrite <- (d_ell n A f TW ell ELL (s :: u)) by now apply over_cons. cbn [relabel map]. symmetry.
  apply (ellc (fs s)); [now apply (f_lt n A f TW)|now apply (d_over n A f TW)|exact F].
Qed.
(** the result of lowering [u] by the orbit of [s] *)
Definition lowered (s : nat) (u v : list nat) : Prop :=
  fixed v /\ ell v < ell u /\ ell v < ell (s :: v) /\ ell v < ell (fs s :: v).
Lemma lower_one_comm s u : s < n -> fs s = s -> fixed u -> ell (s :: u) < ell u -> comm s u -> lowered s u (s :: u) /\ ell u = 1 + ell (s :: u).
Proof.
  intros Hs Fs FU D1 CM. pose proof FU as [T F]. pose proof T as [O _]. destruct (E_cons s u Hs O) as [E|E]; [lia|]. split; [|lia].
  assert (R : ell (s :: s :: u) = ell u) by (apply E_same; [apply over_cons; split; [auto|now apply over_cons]|now apply undo]).
  split; [|rewrite Fs; lia]. split; [now apply (TI_comm n A f TW)|]. cbn [relabel map]. rewrite Fs. now apply same_cons.
Qed.
Lemma lower_one_conj s u : s < n -> fs s = s -> fixed u -> ell (s :: u) < ell u -> ~ comm s u -> lowered s u (s :: u ++ [s]) /\ ell u = 2 + ell (s :: u ++ [s]).
Proof.
  intros Hs Fs FU D1 CM. pose proof FU as [T F]. pose proof T as [O _]. destruct (conj_ell n A f TW eqw EQW ell ELL s u Hs T CM) as [P _]. specialize (P D1).
  pose proof (TI_side n A f TW ell ELL s u Hs T) as SD. rewrite Fs in *. split; [|auto].
  assert (O1 : over n (u ++ [s])) by (apply over_app; split; [auto|now apply over_one]).
  assert (R : ell (s :: s :: u ++ [s]) = ell (u ++ [s])) by (apply E_same; [apply over_cons; split; [auto|now apply over_cons]|now apply undo]).
  destruct (E_cons s u Hs O) as [E|E]; [lia|].
  split; [|rewrite Fs; lia]. split; [pose proof (TI_conj n A f TW s u Hs T) as X; rewrite Fs in X; exact X|]. cbn [relabel map]. rewrite map_app. cbn [map]. rewrite Fs. now rewrite F.
Qed.

Section Pair.
Variables (s t : nat).
Hypothesis Hs : s < n.
Hypothesis ST : fs s = t.
Hypothesis NE : s <> t.
Lemma Ht : t < n.
Proof. rewrite <- ST. now apply (f_lt n A f TW). Qed.
Lemma TS : fs t = s.
Proof. rewrite <- ST. now apply (f_f n A f TW). Qed.
Lemma t_descent u : over n u -> d u ~ u -> ell (t :: u) = ell (s :: u).
Proof. intros O F. rewrite <- ST. now apply d_sides. Qed.
Ltac ov := repeat match goal with H : ?P |- ?P => exact H | |- over _ [] => apply over_nil | |- over _ (_ :: _) => apply over_cons; split | |- over _ (_ ++ _) => apply over_app; split | |- _ < _ => solve [auto using Ht] end.
(** commutation written with [t] *)
Lemma comm_s u : over n u -> (comm s u <-> s :: u ~ u ++ [t]).
Proof. intros O. rewrite (comm_iff n A f TW) by auto. now rewrite ST. Qed.
Lemma comm_t u : over n u -> (comm t u <-> t :: u ~ u ++ [s]).
Proof. intros O. rewrite (comm_iff n A f TW) by auto using Ht. now rewrite TS. Qed.
Lemma to_s u : over n u -> s :: u ~ u ++ [t] -> comm s u.
Proof. intros O E. now apply comm_s. Qed.
Lemma to_t u : over n u -> t :: u ~ u ++ [s] -> comm t u.
Proof. intros O E. now apply comm_t. Qed.
Lemma flip_to u : d u ~ u -> s :: u ~ u ++ [t] -> t :: u ~ u ++ [s].
Proof. intros F E. apply (d_same n A f TW) in E. unfold relabel in E. rewrite map_app in E. cbn [map] in E. rewrite ST, TS in E. unfold relabel in F. now rewrite F in E. Qed.
Lemma flip_from u : d u ~ u -> t :: u ~ u ++ [s] -> s :: u ~ u ++ [t].
Proof. intros F E. apply (d_same n A f TW) in E. unfold relabel in E. rewrite map_app in E. cbn [map] in E. rewrite ST, TS in E. unfold relabel in F. now rewrite F in E. Qed.
Lemma tail_undo u x : x < n -> (u ++ [x]) ++ [x] ~ u.
Proof. intros Hx. rewrite <- app_assoc. now apply same_undo. Qed.
Lemma cons_cancel x u v : x < n -> x :: u ~ x :: v -> u ~ v.
Proof. intros Hx E. apply (same_cancel_l n (coxeter A) _ _ [x]); [now apply over_one|exact E]. Qed.
Lemma snoc_cancel x u v : x < n -> u ++ [x] ~ v ++ [x] -> u ~ v.
Proof. intros Hx E. apply (same_cancel_r n (coxeter A) _ _ [x]); [now apply over_one|exact E]. Qed.
(** the elements obtained by one conjugation *)
Lemma first_conj u : fixed u -> ell (s :: u) < ell u -> ~ comm s u ->
  TI (s :: u ++ [t]) /\ ell u = 2 + ell (s :: u ++ [t]).
Proof.
  intros FU D1 CM. pose proof FU as [T F]. pose proof (TI_conj n A f TW s u Hs T) as T1. rewrite ST in T1. split; [auto|].
  destruct (conj_ell n A f TW eqw EQW ell ELL s u Hs T CM) as [P _]. specialize (P D1). now rewrite ST in P.
Qed.
Lemma lowered_as u v v' : TI v -> over n v' -> v ~ v' -> d v' ~ v' -> ell v' < ell u -> ell v' < ell (s :: v') -> ell v' < ell (t :: v') -> lowered s u v /\ ell v = ell v'.
Proof.
  intros T O' E F L U1 U2. pose proof T as [O _]. rewrite (E_same v v' O E). split; [|auto]. split; [|rewrite ST, (E_same v v' O E), (ellc s v v' Hs O E), (ellc t v v' Ht O E); auto].
  split; [auto|]. rewrite E at 2. rewrite <- F. now apply (d_same n A f TW).
Qed.

Section Two.
Hypothesis M2 : coxeter A s t = 2.
Lemma st_ts u : s :: t :: u ~ t :: s :: u.
Proof. pose proof (same_braid n (coxeter A) s t Hs Ht NE) as B. rewrite M2 in B. cbn [alt] in B. apply (same_app_r n (coxeter A) u _ _ B). Qed.
Lemma st_ts_tail u : (u ++ [s]) ++ [t] ~ (u ++ [t]) ++ [s].
Proof. rewrite <- !app_assoc. cbn [app]. pose proof (st_ts []) as B. now rewrite B. Qed.
(** writing [u] as the two generators followed by a rest *)
Lemma two_rest u : fixed u -> ell (s :: u) < ell u ->
  exists v, over n v /\ u ~ s :: t :: v /\ ell u = 2 + ell v /\ ell v < ell (s :: v) /\ ell v < ell (t :: v) /\ d v ~ v.
Proof.
  intros FU D1. pose proof FU as [T F]. pose proof T as [O _]. pose proof (t_descent u O F) as DT. pose proof Ht as Ht.
  destruct (both_descents s t u Hs Ht NE O D1 ltac:(lia)) as (v & Ov & SV & LV & U1 & U2). rewrite M2 in SV, LV. cbn [alt app] in SV.
  exists v. repeat (split; [solve [auto]|]). pose proof (d_same n A f TW _ _ SV) as DV. cbn [relabel map] in DV. rewrite ST, TS in DV. rewrite <- st_ts in DV.
  apply (cons_cancel t); auto. apply (cons_cancel s); auto. now rewrite <- SV, <- F.
Qed.
Lemma lower_two_comm u : fixed u -> ell (s :: u) < ell u -> comm s u -> lowered s u (t :: s :: u) /\ ell u = 2 + ell (t :: s :: u).
Proof.
  intros FU D1 CM. pose proof FU as [T F]. pose proof T as [O _]. destruct (two_rest u FU D1) as (v & Ov & SV & LV & U1 & U2 & Fv). pose proof Ht as Ht.
  assert (X : t :: s :: u ~ v) by (rewrite SV, (undo' s) by auto; now apply undo').
  assert (CT : comm t (s :: u)). { apply to_t. ov. apply (proj1 (comm_s u O)) in CM; cbn [app].
 rewrite <- st_ts; rewrite (flip_to u F CM); reflexivity. }
  destruct (lowered_as u (t :: s :: u) v) as [L1 L2]; auto; [|lia|split; [auto|lia]].
  apply (TI_comm n A f TW); auto. now apply (TI_comm n A f TW).
Qed.
Lemma lower_two_complex u : fixed u -> ell (s :: u) < ell u -> ~ comm s u -> ell (t :: s :: u ++ [t]) < ell (s :: u ++ [t]) ->
  ~ comm t (s :: u ++ [t]) /\ lowered s u (t :: (s :: u ++ [t]) ++ [s]) /\ ell u = 4 + ell (t :: (s :: u ++ [t]) ++ [s]).
Proof.
  intros FU D1 CM D2. pose proof FU as [T F]. pose proof T as [O _]. pose proof Ht as Ht. destruct (first_conj u FU D1 CM) as [T1 P]. pose proof T1 as [O1 _].
  assert (N1 : ~ comm t (s :: u ++ [t])).
  { intros X. apply CM. apply to_s; [auto|]. apply flip_from; [auto|]. apply (comm_t _ O1) in X. rewrite <- st_ts in X. cbn [app] in X.
    apply cons_cancel in X; auto. rewrite <- st_ts_tail in X. apply (snoc_cancel t); auto. }
  split; [auto|]. destruct (conj_ell n A f TW eqw EQW ell ELL t _ Ht T1 N1) as [P2 _]. specialize (P2 D2). rewrite TS in P2.
  pose proof (TI_conj n A f TW t _ Ht T1) as T2. rewrite TS in T2. pose proof T2 as [O2 _].
  assert (F2 : d (t :: (s :: u ++ [t]) ++ [s]) ~ t :: (s :: u ++ [t]) ++ [s]).
  { unfold relabel. cbn [map app]. rewrite !map_app. cbn [map]. rewrite ST, TS. unfold relabel in F. rewrite F, st_ts, st_ts_tail. reflexivity. }
  split; [|lia]. assert (UT : ell (t :: t :: (s :: u ++ [t]) ++ [s]) = ell (t :: s :: u ++ [t])).
  { rewrite <- (TI_side n A f TW ell ELL t _ Ht T1), TS. apply E_same; [ov|]. now apply undo'. }
  pose proof (E_cons t _ Ht O1) as EC. pose proof (t_descent _ O2 F2) as TD.
  split; [split; auto|]. split; [lia|]. rewrite ST. split; lia.
Qed.
Lemma lower_two_semi u : fixed u -> ell (s :: u) < ell u -> ~ comm s u -> ell (s :: u ++ [t]) < ell (t :: s :: u ++ [t]) ->
  lowered s u (s :: u ++ [t]) /\ ell u = 2 + ell (s :: u ++ [t]).
Proof.
  intros FU D1 CM D2. pose proof FU as [T F]. pose proof T as [O _]. destruct (two_rest u FU D1) as (v & Ov & SV & LV & U1 & U2 & Fv). pose proof Ht as Ht.
  destruct (first_conj u FU D1 CM) as [T1 P]. pose proof T1 as [O1 _].
  assert (X : s :: u ++ [t] ~ t :: v ++ [t]) by (rewrite SV; cbn [app]; now rewrite (undo' s) by auto).
  assert (Y : t :: s :: u ++ [t] ~ v ++ [t]) by (rewrite X; now apply undo').
  assert (LX : ell (t :: v ++ [t]) = ell v) by (rewrite <- (E_same _ _ O1 X); lia).
  assert (LY : ell (t :: s :: u ++ [t]) = ell (v ++ [t])) by (apply E_same; [ov|auto]).
  pose proof (meet n A eqw EQW ell ELL t t v Ht Ht Ov U2 ltac:(lia) ltac:(lia)) as M.
  destruct (lowered_as u (s :: u ++ [t]) v) as [L1 L2]; auto; [|lia].
  rewrite X, <- M. now apply undo'.
Qed.
End Two.

Section Three.
Hypothesis M3 : coxeter A s t = 3.
Lemma sts u : s :: t :: s :: u ~ t :: s :: t :: u.
Proof. pose proof (same_braid n (coxeter A) s t Hs Ht NE) as B. rewrite M3 in B. cbn [alt] in B. apply (same_app_r n (coxeter A) u _ _ B). Qed.
Lemma sts_tail u : ((u ++ [s]) ++ [t]) ++ [s] ~ ((u ++ [t]) ++ [s]) ++ [t].
Proof. rewrite <- !app_assoc. cbn [app]. pose proof (sts []) as B. now rewrite B. Qed.
Lemma three_rest u : over n u -> d u ~ u -> ell (s :: u) < ell u ->
  exists v, over n v /\ u ~ s :: t :: s :: v /\ ell u = 3 + ell v /\ ell v < ell (s :: v) /\ ell v < ell (t :: v) /\ d v ~ v.
Proof.
  intros O F D1. pose proof (t_descent u O F) as DT. pose proof Ht as Ht.
  destruct (both_descents s t u Hs Ht NE O D1 ltac:(lia)) as (v & Ov & SV & LV & U1 & U2). rewrite M3 in SV, LV. cbn [alt app] in SV.
  exists v. repeat (split; [solve [auto]|]). pose proof (d_same n A f TW _ _ SV) as DV. cbn [relabel map] in DV. rewrite ST, TS in DV. rewrite <- sts in DV.
  apply (cons_cancel s); auto. apply (cons_cancel t); auto. apply (cons_cancel s); auto. now rewrite <- SV, <- F.
Qed.
Lemma lower_three_comm u : fixed u -> ell (s :: u) < ell u -> comm s u ->
  lowered s u (t :: (s :: u) ++ [s]) /\ ell u = 3 + ell (t :: (s :: u) ++ [s]).
Proof.
  intros FU D1 CM. pose proof FU as [T F]. pose proof T as [O _]. destruct (three_rest u O F D1) as (v & Ov & SV & LV & U1 & U2 & Fv). pose proof Ht as Ht.
  assert (X : t :: (s :: u) ++ [s] ~ v).
  { cbn [app]. apply (proj1 (comm_s u O)) in CM. rewrite <- (flip_to u F CM). rewrite SV, sts, (undo' t), (undo' t), (undo' s) by auto. reflexivity. }
  destruct (lowered_as u (t :: (s :: u) ++ [s]) v) as [L1 L2]; auto; [|lia|split; [auto|lia]].
  pose proof (TI_conj n A f TW t (s :: u) Ht (TI_comm n A f TW s u Hs T CM)) as Q. now rewrite TS in Q.
Qed.
(** what remains after one conjugation *)
Lemma three_side u v : fixed u -> ell (s :: u) < ell u -> ~ comm s u -> over n v -> u ~ s :: t :: s :: v -> ell u = 3 + ell v -> ell v < ell (s :: v) -> ell v < ell (t :: v) ->
  ell v < ell (v ++ [t]) -> s :: v ~ v ++ [t].
Proof.
  intros FU D1 CM Ov SV LV U1 U2 U3. pose proof FU as [T F]. pose proof T as [O _]. pose proof Ht as Ht. destruct (first_conj u FU D1 CM) as [T1 P]. pose proof T1 as [O1 _].
  assert (X : s :: u ++ [t] ~ t :: s :: v ++ [t]) by (rewrite SV; cbn [app]; now rewrite (undo' s) by auto).
  assert (OV : over n (v ++ [t])) by ov.
  assert (LX : ell (t :: s :: v ++ [t]) = 1 + ell v) by (rewrite <- (E_same _ _ O1 X); lia).
  assert (L3 : ell (v ++ [t]) = 1 + ell v) by (destruct (E_snoc t v Ht Ov); lia).
  assert (DD : ell (s :: v ++ [t]) < ell (v ++ [t]) \/ ell (t :: v ++ [t]) < ell (v ++ [t])).
  { destruct (E_cons s _ Hs OV) as [E1|E1]; [|lia]. destruct (E_cons t _ Ht OV) as [E2|E2]; [|lia].
    pose proof (min_add 2 t s _ Ht Hs (not_eq_sym NE) OV ltac:(lia) ltac:(lia)) as Q. rewrite cox_symm, M3 in Q. specialize (Q ltac:(lia)). cbn [alt app] in Q. lia. }
  destruct DD as [DD|DD]; [now apply (meet n A eqw EQW ell ELL)|].
  pose proof (meet n A eqw EQW ell ELL t t v Ht Ht Ov U2 U3 DD) as M. exfalso. apply CM.
  unfold TwistWords.comm. rewrite ST, X, <- M, <- sts, <- SV. reflexivity.
Qed.
Lemma lower_three_semi u : fixed u -> ell (s :: u) < ell u -> ~ comm s u -> comm t (s :: u ++ [t]) ->
  lowered s u (t :: s :: u ++ [t]) /\ ell u = 3 + ell (t :: s :: u ++ [t]).
Proof.
  intros FU D1 CM CT. pose proof FU as [T F]. pose proof T as [O _]. destruct (three_rest u O F D1) as (v & Ov & SV & LV & U1 & U2 & Fv). pose proof Ht as Ht.
  destruct (first_conj u FU D1 CM) as [T1 P]. pose proof T1 as [O1 _].
  assert (X : s :: u ++ [t] ~ t :: s :: v ++ [t]) by (rewrite SV; cbn [app]; now rewrite (undo' s) by auto).
  assert (U3 : ell v < ell (v ++ [t])).
  { destruct (E_snoc t v Ht Ov) as [E|E]; [lia|exfalso]. apply (comm_t _ O1) in CT. rewrite X in CT. rewrite (undo' t) in CT by auto. cbn [app] in CT.
    assert (Y : u ~ ((v ++ [t]) ++ [s]) ++ [t]).
    { rewrite SV. rewrite <- (tail_undo v t) at 1 by auto. change (s :: t :: s :: (v ++ [t]) ++ [t]) with ((s :: t :: s :: v ++ [t]) ++ [t]).
      rewrite CT, (undo' t), (undo' s) by auto. reflexivity. }
    pose proof (E_same _ _ O Y) as LY. pose proof (E_snoc t ((v ++ [t]) ++ [s]) Ht ltac:(ov)). pose proof (E_snoc s (v ++ [t]) Hs ltac:(ov)). lia. }
  pose proof (three_side u v FU D1 CM Ov SV LV U1 U2 U3) as SD.
  assert (Y : t :: s :: u ++ [t] ~ v) by (rewrite X, (undo' t), <- SD by auto; now apply undo').
  destruct (lowered_as u (t :: s :: u ++ [t]) v) as [L1 L2]; auto; [|lia|split; [auto|lia]].
  now apply (TI_comm n A f TW).
Qed.
Lemma lower_three_complex u : fixed u -> ell (s :: u) < ell u -> ~ comm s u -> ~ comm t (s :: u ++ [t]) ->
  let w := s :: (t :: (s :: u ++ [t]) ++ [s]) ++ [t] in lowered s u w /\ ell u = 6 + ell w.
Proof.
  intros FU D1 CM CT w. pose proof FU as [T F]. pose proof T as [O _]. destruct (three_rest u O F D1) as (v & Ov & SV & LV & U1 & U2 & Fv). pose proof Ht as Ht.
  destruct (first_conj u FU D1 CM) as [T1 P]. pose proof T1 as [O1 _].
  assert (X : s :: u ++ [t] ~ t :: s :: v ++ [t]) by (rewrite SV; cbn [app]; now rewrite (undo' s) by auto).
  assert (U3 : ell (v ++ [t]) < ell v).
  { destruct (E_snoc t v Ht Ov) as [E|E]; [exfalso|lia]. pose proof (three_side u v FU D1 CM Ov SV LV U1 U2 ltac:(lia)) as SD. apply CT. apply to_t; [auto|].
    assert (Y : s :: u ++ [t] ~ t :: v) by (rewrite X, <- SD, (undo' s) by auto; reflexivity).
    rewrite Y, (undo' t) by auto. cbn [app]. rewrite <- (flip_to v Fv SD). symmetry. now apply undo'. }
  assert (OR : over n (rev v)) by now apply over_rev.
  assert (R1 : ell (t :: rev v) < ell (rev v)) by (rewrite <- (E_rev v Ov), <- (E_rev (v ++ [t])) in U3 by ov; rewrite rev_app_distr in U3; exact U3).
  assert (FR : d (rev v) ~ rev v) by (unfold relabel; rewrite map_rev; apply (same_rev n (coxeter A) _ _ (cox_symm A)); exact Fv).
  rewrite (t_descent _ OR FR) in R1. destruct (three_rest (rev v) OR FR R1) as (v' & Ov' & SV' & LV' & U1' & U2' & Fv').
  rewrite (E_rev v Ov) in LV'.
  assert (VV : v ~ ((rev v' ++ [s]) ++ [t]) ++ [s]).
  { apply (same_rev n (coxeter A) _ _ (cox_symm A)) in SV'. rewrite rev_involutive in SV'. exact SV'. }
  assert (Tw : TI w).
  { pose proof (TI_conj n A f TW t _ Ht T1) as T2. rewrite TS in T2. pose proof (TI_conj n A f TW s _ Hs T2) as T3. now rewrite ST in T3. }
  assert (WV : w ~ rev v').
  { unfold w. rewrite X. cbn [app]. rewrite VV. rewrite !(undo' t), !(undo' s) by auto. rewrite sts_tail. rewrite !tail_undo by auto. reflexivity. }
  assert (Fw : d w ~ w).
  { unfold w, relabel. cbn [map app]. rewrite !map_app. cbn [map]. rewrite ST, TS. unfold relabel in F. rewrite F, sts, sts_tail. reflexivity. }
  assert (WV' : w ~ v').
  { rewrite <- (fixed_rev w) by (split; auto). rewrite <- (rev_involutive v'). now apply (same_rev n (coxeter A) _ _ (cox_symm A)). }
  destruct (lowered_as u w v') as [L1 L2]; auto; [lia|]. split; [auto|lia].
Qed.
End Three.
End Pair.
End Orbit.
