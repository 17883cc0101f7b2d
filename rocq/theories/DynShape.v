(** Components of finite type are accepted, with their type. *)

From Coq Require Import List Arith ZArith Bool Lia Permutation.
From Verif Require Import VecModel VecProofs RunModel RunProofs MatModel MatSpec MatProofs BitsetModel BitsetSpec
  LieTypeModel LieTypeSpec DynkinModel DynBits DynGraph DynTrav DynRead DynClass.
Import ListNotations.
Local Open Scope nat_scope.

(** types whose diagram is a line *)
Definition lined (X : letter) : bool := match X with tA | tB | tC | tF | tf | tG | tg => true | _ => false end.
Lemma kinds X : X <> tT -> lined X = true \/ X = tD \/ X = tE.
Proof. destruct X; cbn; auto; congruence. Qed.
Lemma line_iff i j : line i j = true <-> S i = j \/ S j = i.
Proof. unfold line. rewrite orb_true_iff, !Nat.eqb_eq. reflexivity. Qed.
Lemma std_line X r i j : lined X = true -> valid_rank X r -> i < r -> j < r -> i <> j -> std X r i j <> 0%Z <-> line i j = true.
Proof.
  intros L V Hi Hj N. unfold std. rewrite (proj2 (Nat.eqb_neq i j)) by exact N. rewrite line_iff.
  assert (B : forall b, bond b <> 0%Z <-> b = true) by (intros []; cbn; split; congruence).
  destruct X; cbn in L; try discriminate; cbn in V; try (rewrite B, line_iff; reflexivity).
  all: unfold is_pair; match goal with |- context [if ?b then _ else _] => destruct b eqn:E end; [|rewrite B, line_iff; reflexivity].
  all: apply andb_true_iff in E; destruct E as [E1 E2]; apply Nat.eqb_eq in E1, E2; split; [lia|intros _; discriminate].
Qed.
(** where the labels are *)
Definition lab_at (X : letter) (r : nat) : option (nat * nat) :=
  match X with
  | tB => Some (r - 2, r - 1)
  | tC => Some (r - 1, r - 2)
  | tF => Some (1, 2)
  | tf => Some (2, 1)
  | tG => Some (1, 0)
  | tg => Some (0, 1)
  | _ => None
  end.
Lemma std_label X r i j : X <> tT -> i <> j -> (std X r i j < -1)%Z -> lab_at X r = Some (i, j).
Proof.
  intros NT N. unfold std. rewrite (proj2 (Nat.eqb_neq i j)) by exact N.
  assert (B : forall b, ~ (bond b < -1)%Z) by (intros []; cbn; lia).
  destruct X; cbn [lab_at]; intros H; try (exfalso; revert H; apply B); try congruence.
  all: try (unfold is_pair in H; match type of H with context [if ?b then _ else _] => destruct b eqn:E end; [|exfalso; revert H; apply B];
    apply andb_true_iff in E; destruct E as [E1 E2]; apply Nat.eqb_eq in E1, E2; subst; reflexivity).
  destruct (is_edge (r - 2) (r - 1) i j); [lia|]. destruct (is_edge (r - 3) (r - 1) i j); [lia|]. exfalso; revert H; apply B.
Qed.
Lemma std_label3 X r i j : X <> tT -> i <> j -> std X r i j = (-3)%Z -> X = tG \/ X = tg.
Proof.
  intros NT N. unfold std. rewrite (proj2 (Nat.eqb_neq i j)) by exact N.
  assert (B : forall b, bond b <> (-3)%Z) by (intros []; cbn; lia).
  destruct X; auto; intros H; exfalso; revert H; try apply B; try congruence.
  all: repeat match goal with |- context [if ?b then _ else _] => destruct b end; try lia; apply B.
Qed.

Lemma NoDup_map_in (g : nat -> nat) l : NoDup l -> (forall x y, In x l -> In y l -> g x = g y -> x = y) -> NoDup (map g l).
Proof.
  induction l as [|x l IH]; intros N H; [constructor|]. inversion N as [|? ? Nx N1]. subst. cbn. constructor.
  - intros I. apply in_map_iff in I as (y & E & Iy). apply Nx. rewrite (H x y); [exact Iy|left; reflexivity|right; exact Iy|symmetry; exact E].
  - apply IH; [exact N1|]. intros y z Iy Iz. apply H; right; assumption.
Qed.

Section Shape.
Variable n : nat.
Variable f : nat -> nat -> Z.
Variable star : list Z.
Hypothesis RD : readable n f.
Let adj := adjf n f.
Hypothesis ST : stars star n adj.
Variable Sp : Z.
Hypothesis Sp32 : is32 Sp.
Hypothesis Sn : forall u, mem Sp u = true -> u < n.
Hypothesis SCl : forall i j, mem Sp i = true -> adj i j = true -> mem Sp j = true.
Variable X : letter.
Variable q : list nat.
Hypothesis SH : shape f Sp X q.
Hypothesis NT : X <> tT.
Let r := length q.

Lemma sh_rank : r = rank Sp.
Proof. destruct SH as (_ & L & _). apply (lists_length Sp Sp32). exact L. Qed.
Lemma sh_valid : valid_rank X r. Proof. apply SH. Qed.
Lemma sh_idx x : mem Sp x = true -> exists a, a < r /\ nth a q 0 = x.
Proof. destruct SH as (_ & L & _). apply (idx Sp). exact L. Qed.
Lemma sh_mem a : a < r -> mem Sp (nth a q 0) = true.
Proof. destruct SH as (_ & L & _). apply (at_mem Sp). exact L. Qed.
Lemma sh_inj a b : a < r -> b < r -> nth a q 0 = nth b q 0 -> a = b.
Proof. destruct SH as (_ & L & _). apply (at_inj Sp). exact L. Qed.
Lemma sh_f a b : a < r -> b < r -> f (nth a q 0) (nth b q 0) = std X r a b.
Proof. apply SH. Qed.
Definition nb (a b : nat) : Prop := a <> b /\ std X r a b <> 0%Z.
Lemma sh_adj a b : a < r -> b < r -> adj (nth a q 0) (nth b q 0) = true <-> nb a b.
Proof.
  intros Ha Hb. unfold nb. split.
  - intros A. apply adjf_lt in A as (_ & _ & N & Z0). rewrite sh_f in Z0 by assumption. split; [congruence|exact Z0].
  - intros [N Z0]. apply adjf_intro; [apply Sn, sh_mem; exact Ha|apply Sn, sh_mem; exact Hb| |rewrite sh_f; assumption].
    intros E. apply sh_inj in E; auto.
Qed.
Lemma sh_D a l : a < r -> NoDup l -> (forall b, In b l <-> b < r /\ nb a b) -> D star (nth a q 0) = length l.
Proof.
  intros Ha N H. rewrite D_eq. rewrite <- (map_length (fun b => nth b q 0) l). pose proof (sh_mem a Ha) as Ma. pose proof (Sn _ Ma) as Hn.
  apply Permutation_length. apply NoDup_Permutation; [apply els_nodup| |].
  - apply NoDup_map_in; [exact N|]. intros x y Ix Iy E. apply H in Ix, Iy. apply sh_inj; tauto.
  - intros y. rewrite (nb_in n f star ST Sp Sn _ y Ma). rewrite in_map_iff. split.
    + intros A. destruct (sh_idx y) as (b & Hb & <-); [apply (SCl (nth a q 0)); assumption|]. exists b. split; [reflexivity|].
      apply H. split; [exact Hb|]. apply sh_adj; assumption.
    + intros (b & <- & Ib). apply H in Ib as [Hb Nb]. apply sh_adj; assumption.
Qed.

(** ** Degrees *)
Lemma deg_line a : lined X = true -> a < r -> 2 <= r ->
  D star (nth a q 0) = (if a =? 0 then 0 else 1) + (if a =? r - 1 then 0 else 1).
Proof.
  intros L Ha R2.
  rewrite (sh_D a ((if a =? 0 then [] else [a - 1]) ++ (if a =? r - 1 then [] else [a + 1])) Ha).
  - rewrite app_length. destruct (a =? 0), (a =? r - 1); reflexivity.
  - destruct (Nat.eqb_spec a 0), (Nat.eqb_spec a (r - 1)); cbn; repeat constructor; cbn; lia.
  - intros b. rewrite in_app_iff. unfold nb.
    assert (Q : b < r /\ a <> b /\ std X r a b <> 0%Z <-> b < r /\ (S a = b \/ S b = a)).
    { split.
      - intros (Hb & N & Z0). split; [exact Hb|]. apply line_iff. apply (std_line X r a b L sh_valid Ha Hb N). exact Z0.
      - intros (Hb & E). assert (N : a <> b) by lia. split; [exact Hb|]. split; [exact N|].
        apply (std_line X r a b L sh_valid Ha Hb N). apply line_iff. exact E. }
    rewrite Q. destruct (Nat.eqb_spec a 0), (Nat.eqb_spec a (r - 1)); cbn [In]; lia.
Qed.
Lemma nb_line a b : lined X = true -> a < r -> b < r -> nb a b <-> S a = b \/ S b = a.
Proof.
  intros L Ha Hb. unfold nb. split.
  - intros [N Z0]. apply line_iff. apply (std_line X r a b L sh_valid Ha Hb N). exact Z0.
  - intros E. assert (N : a <> b) by lia. split; [exact N|]. apply (std_line X r a b L sh_valid Ha Hb N). apply line_iff. exact E.
Qed.
Lemma bond_nz b : bond b <> 0%Z <-> b = true.
Proof. destruct b; cbn; split; congruence. Qed.
Lemma nb_D a b : X = tD -> a < r -> b < r ->
  nb a b <-> (a = r - 1 /\ b = r - 3) \/ (b = r - 1 /\ a = r - 3) \/ (a <> r - 1 /\ b <> r - 1 /\ (S a = b \/ S b = a)).
Proof.
  intros EX Ha Hb. pose proof sh_valid as V. unfold nb. rewrite EX in *. cbn in V. split.
  - intros [N Z0]. rewrite std_D in Z0 by assumption. apply bond_nz in Z0.
    destruct (Nat.eqb_spec a (r - 1)); [apply Nat.eqb_eq in Z0; lia|]. destruct (Nat.eqb_spec b (r - 1)); [apply Nat.eqb_eq in Z0; lia|].
    apply line_iff in Z0. lia.
  - intros H. assert (N : a <> b) by lia. split; [exact N|]. rewrite std_D by assumption. apply bond_nz.
    destruct (Nat.eqb_spec a (r - 1)); [apply Nat.eqb_eq; lia|]. destruct (Nat.eqb_spec b (r - 1)); [apply Nat.eqb_eq; lia|].
    apply line_iff. lia.
Qed.
Lemma deg_D a : X = tD -> a < r ->
  D star (nth a q 0) = if a =? r - 3 then 3 else if (a =? 0) || (a =? r - 2) || (a =? r - 1) then 1 else 2.
Proof.
  intros EX Ha. pose proof sh_valid as V. rewrite EX in V. cbn in V.
  rewrite (sh_D a (if a =? r - 3 then [a - 1; a + 1; a + 2] else if a =? 0 then [1] else if (a =? r - 2) || (a =? r - 1) then [r - 3] else [a - 1; a + 1]) Ha).
  - destruct (a =? r - 3), (a =? 0), (a =? r - 2), (a =? r - 1); reflexivity.
  - destruct (Nat.eqb_spec a (r - 3)), (Nat.eqb_spec a 0), (Nat.eqb_spec a (r - 2)), (Nat.eqb_spec a (r - 1)); cbn [orb]; repeat constructor; cbn; lia.
  - intros b. destruct (le_lt_dec r b) as [Hb|Hb].
    + split; [|lia]. destruct (Nat.eqb_spec a (r - 3)), (Nat.eqb_spec a 0), (Nat.eqb_spec a (r - 2)), (Nat.eqb_spec a (r - 1)); cbn [orb In]; lia.
    + rewrite (nb_D a b EX Ha Hb). destruct (Nat.eqb_spec a (r - 3)), (Nat.eqb_spec a 0), (Nat.eqb_spec a (r - 2)), (Nat.eqb_spec a (r - 1)); cbn [orb In]; lia.
Qed.
Lemma nb_E a b : X = tE -> a < r -> b < r ->
  nb a b <-> (a = 0 /\ b = 2) \/ (b = 0 /\ a = 2) \/ (a = 1 /\ b = 3) \/ (b = 1 /\ a = 3) \/ (2 <= a /\ 2 <= b /\ (S a = b \/ S b = a)).
Proof.
  intros EX Ha Hb. pose proof sh_valid as V. unfold nb. rewrite EX in *. cbn in V. split.
  - intros [N Z0]. rewrite std_E in Z0 by lia. apply bond_nz in Z0.
    destruct a as [|[|a]], b as [|[|b]]; cbn [pat_E] in Z0; try discriminate; try (apply Nat.eqb_eq in Z0; lia). apply line_iff in Z0. lia.
  - intros H. assert (N : a <> b) by lia. split; [exact N|]. rewrite std_E by lia. apply bond_nz.
    destruct a as [|[|a]], b as [|[|b]]; cbn [pat_E]; try lia; try (apply Nat.eqb_eq; lia). apply line_iff. lia.
Qed.
Lemma deg_E a : X = tE -> a < r ->
  D star (nth a q 0) = if a =? 3 then 3 else if (a =? 0) || (a =? 1) || (a =? r - 1) then 1 else 2.
Proof.
  intros EX Ha. pose proof sh_valid as V. rewrite EX in V. cbn in V.
  rewrite (sh_D a (if a =? 3 then [1; 2; 4] else if a =? 0 then [2] else if a =? 1 then [3] else if a =? 2 then [0; 3]
                   else if a =? r - 1 then [r - 2] else [a - 1; a + 1]) Ha).
  - destruct (Nat.eqb_spec a 3), (Nat.eqb_spec a 0), (Nat.eqb_spec a 1), (Nat.eqb_spec a 2), (Nat.eqb_spec a (r - 1)); try reflexivity; lia.
  - destruct (Nat.eqb_spec a 3), (Nat.eqb_spec a 0), (Nat.eqb_spec a 1), (Nat.eqb_spec a 2), (Nat.eqb_spec a (r - 1)); repeat constructor; cbn; lia.
  - intros b. destruct (le_lt_dec r b) as [Hb|Hb].
    + split; [|lia]. destruct (Nat.eqb_spec a 3), (Nat.eqb_spec a 0), (Nat.eqb_spec a 1), (Nat.eqb_spec a 2), (Nat.eqb_spec a (r - 1)); cbn [In]; lia.
    + rewrite (nb_E a b EX Ha Hb). destruct (Nat.eqb_spec a 3), (Nat.eqb_spec a 0), (Nat.eqb_spec a 1), (Nat.eqb_spec a 2), (Nat.eqb_spec a (r - 1)); cbn [In]; lia.
Qed.

(** ** No reason to refuse *)
Lemma deg_cases a : a < r -> 2 <= r ->
  (lined X = true /\ D star (nth a q 0) = (if a =? 0 then 0 else 1) + (if a =? r - 1 then 0 else 1)) \/
  (X = tD /\ 4 <= r /\ D star (nth a q 0) = if a =? r - 3 then 3 else if (a =? 0) || (a =? r - 2) || (a =? r - 1) then 1 else 2) \/
  (X = tE /\ 6 <= r <= 8 /\ D star (nth a q 0) = if a =? 3 then 3 else if (a =? 0) || (a =? 1) || (a =? r - 1) then 1 else 2).
Proof.
  intros Ha R2. pose proof sh_valid as V. destruct (kinds X NT) as [L|[E|E]].
  - left. split; [exact L|]. apply deg_line; assumption.
  - right; left. split; [exact E|]. rewrite E in V. split; [exact V|]. apply deg_D; assumption.
  - right; right. split; [exact E|]. rewrite E in V. split; [exact V|]. apply deg_E; assumption.
Qed.
Lemma deg3 a : a < r -> 3 <= D star (nth a q 0) ->
  D star (nth a q 0) = 3 /\ ((X = tD /\ 4 <= r /\ a = r - 3) \/ (X = tE /\ 6 <= r <= 8 /\ a = 3)).
Proof.
  intros Ha D3. destruct (le_lt_dec r 1) as [R1|R1].
  { exfalso. assert (Z0 : D star (nth a q 0) = 0); [|lia]. change 0 with (@length nat []). apply sh_D; [exact Ha|constructor|].
    intros b. split; [intros []|]. intros [Hb [N _]]. lia. }
  destruct (deg_cases a Ha R1) as [[L E]|[(L & R & E)|(L & R & E)]]; rewrite E in *.
  - exfalso. destruct (a =? 0), (a =? r - 1); lia.
  - destruct (Nat.eqb_spec a (r - 3)) as [->|N]; [auto|]. exfalso. destruct (_ || _) in D3; lia.
  - destruct (Nat.eqb_spec a 3) as [->|N]; [auto|]. exfalso. destruct (_ || _) in D3; lia.
Qed.
Lemma no_label a b : a < r -> b < r -> a <> b -> (f (nth a q 0%nat) (nth b q 0%nat) < -1)%Z -> lab_at X r = Some (a, b).
Proof. intros Ha Hb N H. rewrite sh_f in H by assumption. apply std_label; assumption. Qed.

Theorem no_reason : ~ reason n f star Sp.
Proof.
  pose proof sh_valid as V. intros H. destruct H.
  - (* product *)
    rewrite <- sh_rank in H. destruct (sh_idx i H0) as (a & Ha & <-). destruct (sh_idx j H1) as (b & Hb & <-).
    assert (Nab : a <> b) by congruence. rewrite !sh_f in H3, H4, H5 by assumption. rewrite H in *.
    assert (P : (std X 2 0 1 * std X 2 1 0 = 1 \/ std X 2 0 1 * std X 2 1 0 = 2 \/ std X 2 0 1 * std X 2 1 0 = 3)%Z).
    { clear - V NT. destruct X; cbn in V; try lia; try congruence; cbn; auto. }
    assert (E : (a = 0 /\ b = 1) \/ (a = 1 /\ b = 0)) by lia.
    destruct E as [[-> ->]|[-> ->]]; [|rewrite (Z.mul_comm (std X 2 1 0)) in H3, H4, H5]; destruct P as [P|[P|P]]; contradiction.
  - (* degree *)
    destruct (sh_idx i H) as (a & Ha & <-). destruct (deg3 a Ha) as [E _]; lia.
  - (* two forks *)
    destruct (sh_idx i H) as (a & Ha & <-). destruct (sh_idx j H0) as (b & Hb & <-).
    destruct (deg3 a Ha ltac:(lia)) as [_ [(EX & R & Ea)|(EX & R & Ea)]]; destruct (deg3 b Hb ltac:(lia)) as [_ [(EX' & R' & Eb)|(EX' & R' & Eb)]]; congruence.
  - (* too few end points *)
    rewrite <- sh_rank in H.
    assert (Q : exists a b, a < r /\ b < r /\ a <> b /\ D star (nth a q 0) < 2 /\ D star (nth b q 0) < 2).
    { assert (R2 : 2 <= r) by lia. destruct (kinds X NT) as [L|[E|E]].
      - exists 0, (r - 1). rewrite !deg_line by (try assumption; lia). rewrite !Nat.eqb_refl. destruct (Nat.eqb_spec 0 (r - 1)), (Nat.eqb_spec (r - 1) 0); lia.
      - rewrite E in V. cbn in V. exists (r - 2), (r - 1). rewrite !deg_D by (try assumption; lia).
        rewrite !Nat.eqb_refl, !orb_true_r. cbn [orb].
        destruct (Nat.eqb_spec (r - 2) (r - 3)), (Nat.eqb_spec (r - 1) (r - 3)), (r - 2 =? 0); cbn [orb]; lia.
      - rewrite E in V. cbn in V. exists 0, 1. rewrite !deg_E by (try assumption; lia). cbn. lia. }
    destruct Q as (a & b & Ha & Hb & N & La & Lb). apply N. apply sh_inj; [exact Ha|exact Hb|]. apply H0; try assumption; apply sh_mem; assumption.
  - (* triple edge *)
    rewrite <- sh_rank in H. destruct (sh_idx a H0) as (i & Hi & <-). destruct (sh_idx b H1) as (j & Hj & <-).
    rewrite sh_f in H3 by assumption. destruct (std_label3 X r i j NT ltac:(congruence) H3) as [E|E]; rewrite E in V; cbn in V; lia.
  - (* two labels *)
    destruct (sh_idx a H0) as (i & Hi & <-). destruct (sh_idx b H1) as (j & Hj & <-).
    destruct (sh_idx a' H2) as (i' & Hi' & <-). destruct (sh_idx b' H3) as (j' & Hj' & <-).
    apply no_label in H7; [|assumption|assumption|congruence]. apply no_label in H8; [|assumption|assumption|congruence].
    rewrite H7 in H8. injection H8 as -> ->. apply H6. reflexivity.
  - (* fork and label *)
    destruct (sh_idx a H1) as (u & Hu & <-). destruct (sh_idx b H2) as (v & Hv & <-). destruct (sh_idx i H) as (k & Hk & <-).
    apply no_label in H4; [|assumption|assumption|congruence].
    destruct (deg3 k Hk ltac:(lia)) as [_ [(EX & _)|(EX & _)]]; rewrite EX in H4; discriminate.
  - (* type D: no arm *)
    destruct (sh_idx i H) as (k & Hk & <-).
    destruct (H1 u ltac:(left; reflexivity)) as (Mu & Lu & Au). destruct (H1 v ltac:(right; left; reflexivity)) as (Mv & Lv & Av).
    destruct (sh_idx u Mu) as (a & Ha & <-). destruct (sh_idx v Mv) as (b & Hb & <-).
    destruct (deg3 k Hk ltac:(lia)) as [_ [(EX & R & ->)|(EX & R & ->)]].
    + assert (Q : forall x, x < r -> D star (nth x q 0) < 2 -> adj (nth (r - 3) q 0) (nth x q 0) = false -> x = 0).
      { intros x Hx Lx Ax. rewrite (deg_D x EX Hx) in Lx. assert (Nx : ~ nb (r - 3) x) by (rewrite <- sh_adj by assumption; fold adj; rewrite Ax; discriminate).
        rewrite (nb_D (r - 3) x EX Hk Hx) in Nx.
        destruct (Nat.eqb_spec x (r - 3)), (Nat.eqb_spec x 0), (Nat.eqb_spec x (r - 2)), (Nat.eqb_spec x (r - 1)); cbn [orb] in Lx; lia. }
      apply H2. rewrite (Q a), (Q b) by assumption. reflexivity.
    + apply H3. exists (nth 1 q 0). intros x. split.
      * intros (Mx & Lx & Ax). destruct (sh_idx x Mx) as (y & Hy & <-). apply sh_adj in Ax; [|assumption|assumption].
        rewrite (nb_E 3 y EX Hk Hy) in Ax. rewrite (deg_E y EX Hy) in Lx.
        assert (y = 1); [|congruence]. destruct (Nat.eqb_spec y 3), (Nat.eqb_spec y 0), (Nat.eqb_spec y 1), (Nat.eqb_spec y (r - 1)); cbn [orb] in Lx; lia.
      * intros ->. split; [apply sh_mem; lia|]. rewrite (deg_E 1 EX) by lia. split; [cbn; lia|]. apply sh_adj; [lia|lia|]. apply nb_E; [exact EX|lia|lia|lia].
  - (* type E: rank *)
    rewrite <- sh_rank in H1. destruct (sh_idx i H) as (k & Hk & <-).
    destruct (deg3 k Hk ltac:(lia)) as [_ [(EX & R & ->)|(EX & R & ->)]]; [|lia].
    assert (Q : forall x, x < r -> x = r - 1 \/ x = r - 2 -> nth x q 0 = s).
    { intros x Hx Ex. apply H3. split; [apply sh_mem; exact Hx|]. rewrite (deg_D x EX Hx). split.
      - destruct (Nat.eqb_spec x (r - 3)), (Nat.eqb_spec x 0), (Nat.eqb_spec x (r - 2)), (Nat.eqb_spec x (r - 1)); cbn [orb]; lia.
      - apply sh_adj; [exact Hk|exact Hx|]. apply nb_D; [exact EX|exact Hk|exact Hx|lia]. }
    assert (r - 1 = r - 2); [|lia]. apply sh_inj; [lia|lia|]. rewrite (Q (r - 1)), (Q (r - 2)) by lia. reflexivity.
  - (* type E: arms *)
    destruct (sh_idx i H) as (k & Hk & <-).
    destruct (H1 u ltac:(left; reflexivity)) as (Mu & Lu & Au & Fu). destruct (H1 v ltac:(right; left; reflexivity)) as (Mv & Lv & Av & Fv).
    destruct (sh_idx u Mu) as (a & Ha & <-). destruct (sh_idx v Mv) as (b & Hb & <-).
    destruct (deg3 k Hk ltac:(lia)) as [_ [(EX & R & ->)|(EX & R & ->)]].
    + assert (Q : forall x, x < r -> D star (nth x q 0) < 2 -> adj (nth (r - 3) q 0) (nth x q 0) = false -> x = 0).
      { intros x Hx Lx Ax. rewrite (deg_D x EX Hx) in Lx. assert (Nx : ~ nb (r - 3) x) by (rewrite <- sh_adj by assumption; fold adj; rewrite Ax; discriminate).
        rewrite (nb_D (r - 3) x EX Hk Hx) in Nx.
        destruct (Nat.eqb_spec x (r - 3)), (Nat.eqb_spec x 0), (Nat.eqb_spec x (r - 2)), (Nat.eqb_spec x (r - 1)); cbn [orb] in Lx; lia. }
      apply H2. rewrite (Q a), (Q b) by assumption. reflexivity.
    + assert (Q : forall x, x < r -> D star (nth x q 0) < 2 -> adj (nth 3 q 0) (nth x q 0) = false ->
                   (forall y, adj (nth x q 0) y = true -> adj (nth 3 q 0) y = false) -> x = r - 1).
      { intros x Hx Lx Ax Fx. rewrite (deg_E x EX Hx) in Lx. assert (Nx : ~ nb 3 x) by (rewrite <- sh_adj by assumption; fold adj; rewrite Ax; discriminate).
        rewrite (nb_E 3 x EX Hk Hx) in Nx.
        destruct (Nat.eq_dec x 0) as [->|N0].
        - exfalso. assert (A1 : adj (nth 0 q 0) (nth 2 q 0) = true) by (apply sh_adj; [lia|lia|]; apply nb_E; [exact EX|lia|lia|lia]).
          apply Fx in A1. assert (A2 : adj (nth 3 q 0) (nth 2 q 0) = true) by (apply sh_adj; [lia|lia|]; apply nb_E; [exact EX|lia|lia|lia]). congruence.
        - destruct (Nat.eqb_spec x 3), (Nat.eqb_spec x 0), (Nat.eqb_spec x 1), (Nat.eqb_spec x (r - 1)); cbn [orb] in Lx; lia. }
      apply H2. rewrite (Q a), (Q b) by assumption. reflexivity.
  - (* type F: rank *)
    rewrite <- sh_rank in H5. destruct (sh_idx u H) as (a & Ha & <-). destruct (sh_idx l H0) as (b & Hb & <-).
    apply no_label in H2; [|assumption|assumption|congruence].
    destruct (lined X) eqn:L.
    + rewrite (deg_line a L Ha) in H3 by lia. rewrite (deg_line b L Hb) in H4 by lia.
      destruct (Nat.eqb_spec a 0), (Nat.eqb_spec a (r - 1)), (Nat.eqb_spec b 0), (Nat.eqb_spec b (r - 1)); try lia.
      destruct X; cbn in H2, V; try discriminate; injection H2 as E1 E2; lia.
    + destruct X; cbn in L, H2; discriminate.
Qed.
End Shape.
