(** matreduc::diagonalise. *)

From Coq Require Import List Arith ZArith Znumtheory Lia Bool Sorting.Sorted.
From Verif Require Import VecModel VecProofs SetModel SetProofs PermModel PermSpec PermProofs PermCycles RunModel RunProofs MatModel MatSpec MatProofs MatOps MatOps2 MatArith MatRing MatDiv MatDet RedSpec MatLin RedModel RedGcd RedEchelon RedSolve RedInverse.
Import ListNotations.
Open Scope nat_scope.

(** g = rho f gamma *)
Definition factored (m n : nat) (f g rho gamma : nat -> nat -> Z) : Prop := feq m n g (fmul n (fmul m rho f) gamma).
Lemma factored_col m n f g rho gamma u : factored m n f g rho gamma -> factored m n f (fmul n g u) rho (fmul n gamma u).
Proof.
  intros H a b Ha Hb. rewrite <- fmul_assoc. apply fmul_ext_row. intros j Hj. apply H; assumption.
Qed.
Lemma factored_row m n f g rho gamma w : factored m n f g rho gamma -> factored m n f (fmul m w g) (fmul m w rho) gamma.
Proof.
  intros H a b Ha Hb. rewrite (fmul_ext_col m w g (fmul n (fmul m rho f) gamma)) by (intros; apply H; assumption).
  rewrite <- fmul_assoc. apply fmul_ext_row. intros j Hj. symmetry. apply fmul_assoc.
Qed.

Section Diag.
Variable fits : Z -> bool.
Notation R := (zarith fits).
Notation E := (overflows fits).
Variables (m n : nat) (f : nat -> nat -> Z).

(** row operations on rows k and beyond *)
Lemma row_stage M row g rho C c k : is_mx M m n g -> is_mx row m m rho -> is_mx C (m - k) (m - k) c -> k <= m ->
  gives (run ops <- transpose 0%Z C; run M <- row_apply R M ops k; run row <- row_apply R row ops k; Ok (M, row))
    (fun '(M', row') => exists g' w, is_mx M' m n g' /\ is_mx row' m m (fmul m w rho) /\ det m w = det (m - k) c /\
       feq m n g' (fmul m w g) /\
       (forall a b, a < k -> b < n -> g' a b = g a b) /\
       (forall a b, k <= a < m -> b < n -> g' a b = frow (m - k) (fun j => g (k + j) b) c (a - k))) E.
Proof.
  intros HM Hr HC Hk. eapply gives_bind; [apply (transpose_ok 0%Z C _ _ c HC)|]. intros ops HO. cbv beta in HO.
  eapply gives_bind; [apply (zrow_apply_ok fits M m n g ops (m - k) _ k HM HO); lia|]. intros M' HM'.
  eapply gives_bind; [apply (zrow_apply_ok fits row m m rho ops (m - k) _ k Hr HO); lia|]. intros row' Hr'.
  apply gives_ok. eexists. exists (embed k (m - k) (fun i j => c j i)).
  split; [exact HM'|]. split; [exact Hr'|]. split; [rewrite det_embed' by lia; apply det_transpose|]. split; [apply feq_refl|]. split.
  - intros a b Ha Hb. rewrite fmul_embed_l by lia. nb.
  - intros a b Ha Hb. rewrite fmul_embed_l by lia. nb. unfold frow. apply zsum_ext. intros. lia.
Qed.
(** column operations on columns l and beyond *)
Lemma col_stage M col g gamma C c l : is_mx M m n g -> is_mx col n n gamma -> is_mx C (n - l) (n - l) c -> l <= n ->
  gives (run M <- column_apply R M C l; run col <- column_apply R col C l; Ok (M, col))
    (fun '(M', col') => exists g' w, is_mx M' m n g' /\ is_mx col' n n (fmul n gamma w) /\ det n w = det (n - l) c /\
       feq m n g' (fmul n g w) /\
       (forall a b, a < m -> b < l -> g' a b = g a b) /\
       (forall a b, a < m -> l <= b < n -> g' a b = frow (n - l) (fun j => g a (l + j)) c (b - l))) E.
Proof.
  intros HM Hr HC Hk.
  eapply gives_bind; [apply (zcolumn_apply_ok fits M m n g C (n - l) _ l HM HC); lia|]. intros M' HM'.
  eapply gives_bind; [apply (zcolumn_apply_ok fits col n n gamma C (n - l) _ l Hr HC); lia|]. intros col' Hr'.
  apply gives_ok. eexists. exists (embed l (n - l) c).
  split; [exact HM'|]. split; [exact Hr'|]. split; [apply det_embed'; lia|]. split; [apply feq_refl|]. split.
  - intros a b Ha Hb. rewrite fmul_embed_r by lia. nb.
  - intros a b Ha Hb. rewrite fmul_embed_r by lia. nb.
Qed.

Section Pivot.
Variables (k l : nat) (pi : nat -> nat) (dd : nat -> Z).
Hypothesis Hk : k < m.
Hypothesis Hl : l < n.
Hypothesis Hpi : forall a, a < k -> pi a < l.

Definition piv_inv (st : diag_state) : Prop :=
  let '(M, row, col, rm, cm, d, flip, again) := st in
  exists g rho gamma, is_mx M m n g /\ is_mx row m m rho /\ is_mx col n n gamma /\ factored m n f g rho gamma /\
    unimodular m rho /\ (k = 0 -> det m rho = sgn rm) /\ det n gamma = sgn cm /\ (0 < d)%Z /\ g k l = d /\
    (forall a b, a < k -> b < n -> g a b = if b =? pi a then dd a else 0%Z) /\
    (forall a b, k <= a < m -> b < l -> g a b = 0%Z) /\ (forall a, k < a < m -> g a l = 0%Z) /\
    (again = false -> flip = false /\ forall b, l < b < n -> g k b = 0%Z).

Lemma easy_of_gcd r (x : nat -> Z) : 0 < r -> (0 < x 0%nat)%Z -> is_gcd r x (x 0) -> easy r x.
Proof. intros H P (_ & D & _). split; [exact H|]. split; [exact P|exact D]. Qed.

Lemma diag_round_ok M row col rm cm d flip again : piv_inv (M, row, col, rm, cm, d, flip, again) \/ piv_inv (M, row, col, rm, cm, d, flip, true) ->
  gives (diag_round fits m n k l (M, row, col, rm, cm, d, flip, again)) (fun st => piv_inv st /\
    let '(_, _, _, _, _, d', _, again') := st in again' = true -> (d' < d)%Z) E.
Proof.
  intros H. assert (H' : piv_inv (M, row, col, rm, cm, d, flip, true)).
  { destruct H as [H|H]; [|exact H]. destruct H as (g & rho & gamma & H). exists g, rho, gamma.
    repeat match goal with H : _ /\ _ |- _ => destruct H end. repeat (split; [assumption|]). discriminate. }
  clear H. destruct H' as (g & rho & gamma & HM & HR & HC & HF & UR & DR & DC & Pd & Gkl & HT & HL & HV & _).
  unfold diag_round. eapply gives_bind; [apply (partial_row_ok M m n g k l n HM Hk); lia|]. intros v Hv.
  eapply gives_bind; [apply (gcd_ops_ok fits (n - l) _ v false 0 Hv); lia|].
  intros [[d1 ops] flip1] (IG & I0 & c & HO & HDo & HX & HEz).
  assert (X0 : (fun j => g k (l + j)) 0 = d) by (rewrite Nat.add_0_r; exact Gkl).
  assert (P1 : (0 < d1)%Z /\ (d1 | d)%Z).
  { destruct IG as (Q1 & Q2 & _). specialize (Q2 0 ltac:(lia)). rewrite X0 in Q2. split; [|exact Q2].
    destruct Q2 as [z Q2]. destruct (Z.eq_dec d1 0) as [z0|]; [rewrite z0 in Q2|]; lia. }
  destruct P1 as [P1 D1].
  pose proof (col_stage M col g gamma ops c l HM HC HO ltac:(lia)) as CS.
  revert CS. destruct (column_apply R M ops l) as [M1|er]; cbn [bind]; [|intros CS; exact CS].
  destruct (column_apply R col ops l) as [col1|er]; cbn [bind]; [|intros CS; exact CS].
  intros (g1 & w & HM1 & HC1 & Dw & HG1 & GL1 & GR1).
  assert (HF1 : factored m n f g1 rho (fmul n gamma w)).
  { eapply feq_trans; [exact HG1|]. apply factored_col. exact HF. }
  assert (DC1 : det n (fmul n gamma w) = sgn (xorb cm flip1)).
  { rewrite det_fmul, Dw, HDo, DC, <- sgn_xor. cbn [xorb]. destruct cm, flip1; reflexivity. }
  assert (Gk1 : g1 k l = d1 /\ forall b, l < b < n -> g1 k b = 0%Z).
  { assert (G : forall b, l <= b < n -> g1 k b = if b - l =? 0 then d1 else 0%Z).
    { intros b Hb. rewrite GR1 by lia. apply HX. lia. }
    split; [rewrite G by lia; rewrite Nat.sub_diag; reflexivity|]. intros b Hb. rewrite G by lia. nb. }
  destruct Gk1 as [Gk1 Gz1].
  assert (HT1 : forall a b, a < k -> b < n -> g1 a b = if b =? pi a then dd a else 0%Z).
  { intros a b Ha Hb. destruct (Nat.lt_ge_cases b l); [rewrite GL1 by lia; apply HT; assumption|].
    rewrite GR1 by lia. pose proof (Hpi a Ha). destruct (Nat.eqb_spec b (pi a)); [lia|]. apply zsum_zero.
    intros j Hj. rewrite HT by lia. nb. }
  assert (HL1 : forall a b, k <= a < m -> b < l -> g1 a b = 0%Z).
  { intros a b Ha Hb. rewrite GL1 by lia. apply HL; assumption. }
  destruct (Z.eqb_spec d1 d) as [e|ne].
  { apply gives_ok. split; [|discriminate].
    assert (EZ : easy (n - l) (fun j => g k (l + j))).
    { apply easy_of_gcd; [lia|cbv beta in X0 |- *; lia|]. rewrite X0, <- e. exact IG. }
    destruct (HEz EZ eq_refl) as (_ & Fl & Cl).
    exists g1, rho, (fmul n gamma w). repeat (split; [assumption|]). split.
    - intros a Ha. rewrite GR1 by lia. rewrite Nat.sub_diag.
      rewrite (frow_ext (n - l) _ (fun j => g a (l + j)) c delta) by (auto; intros; apply Cl; assumption).
      rewrite frow_delta by lia. rewrite Nat.add_0_r. apply HV. exact Ha.
    - intros _. split; [exact Fl|exact Gz1]. }
  assert (d1 < d)%Z by (apply Z.divide_pos_le in D1; lia).
  eapply gives_bind; [apply (partial_column_ok 0%Z M1 m n g1 l k m HM1 Hl); lia|]. intros v2 Hv2.
  eapply gives_bind; [apply (gcd_ops_ok fits (m - k) _ v2 false 0 Hv2); lia|].
  intros [[d2 ops2] flip2] (IG2 & I02 & c2 & HO2 & HDo2 & HX2 & HEz2).
  assert (X02 : (fun j => g1 (k + j) l) 0 = d1) by (rewrite Nat.add_0_r; exact Gk1).
  assert (P2 : (0 < d2)%Z /\ (d2 | d1)%Z).
  { destruct IG2 as (Q1 & Q2 & _). specialize (Q2 0 ltac:(lia)). rewrite X02 in Q2. split; [|exact Q2].
    destruct Q2 as [z Q2]. destruct (Z.eq_dec d2 0) as [z0|]; [rewrite z0 in Q2|]; lia. }
  destruct P2 as [P2 D2].
  pose proof (row_stage M1 row g1 rho ops2 c2 k HM1 HR HO2 ltac:(lia)) as RS.
  revert RS. destruct (transpose 0%Z ops2) as [ops3|er]; cbn [bind]; [|intros RS; exact RS].
  destruct (row_apply R M1 ops3 k) as [M2|er]; cbn [bind]; [|intros RS; exact RS].
  destruct (row_apply R row ops3 k) as [row2|er]; cbn [bind]; [|intros RS; exact RS].
  intros (g2 & w2 & HM2 & HR2 & Dw2 & HG2 & GT2 & GB2). apply gives_ok.
  split; [|rewrite Z.ltb_lt; lia].
  assert (Uw : unimodular m w2) by (apply (sgn_unimodular _ _ (xorb false flip2)); rewrite Dw2; exact HDo2).
  exists g2, (fmul m w2 rho), (fmul n gamma w). split; [exact HM2|]. split; [exact HR2|]. split; [exact HC1|].
  split. { eapply feq_trans; [exact HG2|]. apply factored_row. exact HF1. }
  split; [apply unimodular_mul; assumption|].
  split. { intros k0. rewrite det_fmul, Dw2, HDo2, (DR k0), <- sgn_xor. cbn [xorb]. destruct rm, flip2; reflexivity. }
  split; [exact DC1|]. split; [exact P2|].
  assert (Gl2 : forall a, k <= a < m -> g2 a l = if a - k =? 0 then d2 else 0%Z).
  { intros a Ha. rewrite GB2 by lia. apply HX2. lia. }
  split; [rewrite Gl2 by lia; rewrite Nat.sub_diag; reflexivity|].
  split. { intros a b Ha Hb. rewrite GT2 by lia. apply HT1; assumption. }
  split. { intros a b Ha Hb. rewrite GB2 by lia. apply zsum_zero. intros j Hj. rewrite HL1 by lia. lia. }
  split. { intros a Ha. rewrite Gl2 by lia. nb. }
  intros Ag. apply Z.ltb_ge in Ag. assert (d2 = d1) by (apply Z.divide_pos_le in D2; lia).
  assert (EZ : easy (m - k) (fun j => g1 (k + j) l)).
  { apply easy_of_gcd; [lia|cbv beta in X02 |- *; lia|]. rewrite X02. congruence. }
  destruct (HEz2 EZ eq_refl) as (_ & Fl & Cl). split; [exact Fl|].
  intros b Hb. rewrite GB2 by lia. rewrite Nat.sub_diag.
  rewrite (frow_ext (m - k) _ (fun j => g1 (k + j) b) c2 delta) by (auto; intros; apply Cl; assumption).
  rewrite frow_delta by lia. rewrite Nat.add_0_r. apply Gz1. exact Hb.
Qed.
End Pivot.

Definition diag_inv (l : nat) (st : matrix Z * matrix Z * matrix Z * bool * bool * list Z * bset * nat) : Prop :=
  let '(M, row, col, rm, cm, diagonal, piv, k) := st in
  exists g rho gamma pi dd, is_mx M m n g /\ is_mx row m m rho /\ is_mx col n n gamma /\ factored m n f g rho gamma /\
    unimodular m rho /\ (k <= 1 -> det m rho = sgn rm) /\ (k = 0 -> rm = false) /\ det n gamma = sgn cm /\ k <= m /\
    is_vec diagonal k dd /\ (forall a, a < k -> (0 < dd a)%Z) /\
    (forall a b, a < k -> b < n -> g a b = if b =? pi a then dd a else 0%Z) /\
    (forall a b, k <= a < m -> b < l -> g a b = 0%Z) /\
    (forall a, a < k -> pi a < l) /\ (forall a b, a < b -> b < k -> pi a < pi b) /\
    length piv = n /\ (forall b, bs_mem piv b = true <-> exists a, a < k /\ pi a = b).

Lemma diag_column_ok l st : l < n -> diag_inv l st -> gives (diag_column fits m n l st) (diag_inv (S l)) E.
Proof.
  intros Hl. destruct st as [[[[[[[M row] col] rm] cm] diagonal] piv] k].
  intros (g & rho & gamma & pi & dd & HM & HR & HC & HF & UR & DR & RM0 & DC & Hk & HD & PD & HT & HL & HP & HI & LP & MP).
  unfold diag_column. eapply gives_bind; [apply (partial_column_ok 0%Z M m n g l k m HM Hl); lia|]. intros v Hv.
  eapply gives_bind; [apply (gcd_ops_ok fits (m - k) _ v false 0 Hv); lia|].
  intros [[d ops] flip] (IG & I0 & c & HO & HDo & HX & _).
  destruct (Z.eqb_spec d 0) as [d0|dn].
  { apply gives_ok. exists g, rho, gamma, pi, dd. repeat (split; [assumption|]). split.
    - intros a b Ha Hb. destruct (Nat.eq_dec b l) as [->|]; [|apply HL; lia].
      destruct IG as (_ & IG & _). specialize (IG (a - k) ltac:(lia)). cbv beta in IG. rewrite d0 in IG.
      replace (k + (a - k)) with a in IG by lia. destruct IG as [z IG]. lia.
    - split; [intros a Ha; specialize (HP a Ha); lia|]. split; [exact HI|]. split; assumption. }
  assert (Hkm : k < m).
  { destruct (Nat.eq_dec k m) as [->|]; [|lia]. exfalso. apply dn. destruct IG as (P & _ & IG).
    specialize (IG 0%Z). destruct IG as [z Hz]; [intros; lia|lia]. }
  assert (Pd : (0 < d)%Z) by (destruct IG as [? _]; lia).
  destruct (insert_ok piv l ltac:(lia)) as (piv' & EP & LP' & MP'). rewrite EP. cbn [of_option bind].
  pose proof (row_stage M row g rho ops c k HM HR HO ltac:(lia)) as RS.
  revert RS. destruct (transpose 0%Z ops) as [ops3|er]; cbn [bind]; [|intros RS; exact RS].
  destruct (row_apply R M ops3 k) as [M1|er]; cbn [bind]; [|intros RS; exact RS].
  destruct (row_apply R row ops3 k) as [row1|er]; cbn [bind]; [|intros RS; exact RS].
  intros (g1 & w & HM1 & HR1 & Dw & HG1 & GT1 & GB1).
  assert (Gl1 : forall a, k <= a < m -> g1 a l = if a - k =? 0 then d else 0%Z).
  { intros a Ha. rewrite GB1 by lia. apply HX. lia. }
  assert (J0 : piv_inv k l pi dd (M1, row1, col, flip, cm, d, flip, true)).
  { exists g1, (fmul m w rho), gamma. split; [exact HM1|]. split; [exact HR1|]. split; [exact HC|].
    split; [eapply feq_trans; [exact HG1|]; apply factored_row; exact HF|].
    split; [apply unimodular_mul; [apply (sgn_unimodular _ _ (xorb false flip)); rewrite Dw; exact HDo|exact UR]|].
    split. { intros k0. rewrite det_fmul, Dw, HDo, DR, (RM0 k0) by lia. destruct flip; reflexivity. }
    split; [exact DC|]. split; [exact Pd|]. split; [rewrite Gl1 by lia; rewrite Nat.sub_diag; reflexivity|].
    split. { intros a b Ha Hb. rewrite GT1 by lia. apply HT; assumption. }
    split. { intros a b Ha Hb. rewrite GB1 by lia. apply zsum_zero. intros j Hj. rewrite HL by lia. lia. }
    split. { intros a Ha. rewrite Gl1 by lia. nb. }
    discriminate. }
  eapply gives_bind; [apply (diag_round_ok k l pi dd Hkm Hl HP); right; exact J0|].
  intros s1 [J1 B1].
  eapply gives_bind; [apply (gives_loop (fun st => piv_inv k l pi dd st /\ let '(_, _, _, _, _, d', _, again') := st in again' = true -> (d' < d)%Z)
     (fun '(_, _, _, _, _, d', _, again') => if again' : bool then Z.to_nat d' else 0) (fun '(_, _, _, _, _, _, _, again) => again));
     [split; [exact J1|exact B1]| | | |intros s Hs Ha; exact (conj (proj1 Hs) Ha)]|].
  { destruct s1 as [[[[[[[M2 row2] col2] rm2] cm2] d2] flip2] ag2]. destruct ag2; [specialize (B1 eq_refl)|]; lia. }
  { intros [[[[[[[M2 row2] col2] rm2] cm2] d2] flip2] ag2] _. apply gives_ok. reflexivity. }
  { intros [[[[[[[M2 row2] col2] rm2] cm2] d2] flip2] ag2] [J2 B2] ->. specialize (B2 eq_refl).
    assert (P2 : (0 < d2)%Z) by (destruct J2 as (? & ? & ? & ? & ? & ? & ? & ? & ? & ? & P2 & _); exact P2).
    split; [lia|]. eapply gives_mono; [apply (diag_round_ok k l pi dd Hkm Hl HP); right; exact J2|].
    intros [[[[[[[M3 row3] col3] rm3] cm3] d3] flip3] ag3] [J3 B3].
    assert (P3 : (0 < d3)%Z) by (destruct J3 as (? & ? & ? & ? & ? & ? & ? & ? & ? & ? & P3 & _); exact P3).
    split; [split; [exact J3|intros e; specialize (B3 e); lia]|]. destruct ag3; [specialize (B3 eq_refl)|]; lia. }
  intros [[[[[[[M2 row2] col2] rm2] cm2] d2] flip2] ag2] [J2 ->].
  destruct J2 as (g2 & rho2 & gamma2 & HM2 & HR2 & HC2 & HF2 & UR2 & DR2 & DC2 & P2 & Gkl2 & HT2 & HL2 & HV2 & HA2).
  destruct (HA2 eq_refl) as [-> HZ2]. apply gives_ok.
  exists g2, rho2, gamma2, (upd1 pi k l), (upd1 dd k d2).
  split; [exact HM2|]. split; [exact HR2|]. split; [exact HC2|]. split; [exact HF2|]. split; [exact UR2|].
  split; [intros k1; rewrite xorb_false_r; apply DR2; lia|]. split; [lia|]. split; [exact DC2|]. split; [lia|].
  split. { destruct HD as [L G]. split; [rewrite app_length; cbn; lia|]. intros i Hi. rewrite get_app, L. unfold upd1. nb.
    - replace (i - k) with 0 by lia. reflexivity.
    - apply G. lia. }
  split. { intros a Ha. unfold upd1. nb. apply PD. lia. }
  split. { intros a b Ha Hb. unfold upd1. destruct (Nat.eqb_spec a k) as [->|ne]; [|apply HT2; lia].
    destruct (Nat.lt_trichotomy b l) as [c0|[c0|c0]].
    - rewrite HL2 by lia. nb.
    - subst b. rewrite Nat.eqb_refl. exact Gkl2.
    - rewrite HZ2 by lia. nb. }
  split. { intros a b Ha Hb. destruct (Nat.eq_dec b l) as [->|]; [apply HV2; lia|apply HL2; lia]. }
  split. { intros a Ha. unfold upd1. nb. specialize (HP a ltac:(lia)). lia. }
  split. { intros a b Ha Hb. unfold upd1. destruct (Nat.eqb_spec a k); [lia|]. destruct (Nat.eqb_spec b k); [apply HP; lia|apply HI; lia]. }
  split; [congruence|]. intros b. rewrite MP'. unfold upd1. split.
  - intros H. apply orb_true_iff in H. destruct H as [H|H].
    + apply Nat.eqb_eq in H. exists k. rewrite Nat.eqb_refl. split; [lia|auto].
    + apply MP in H. destruct H as (a & Ha & Pa). exists a. split; [lia|]. nb.
  - intros (a & Ha & Pa). destruct (Nat.eqb_spec a k) as [->|ne]; [subst b; rewrite Nat.eqb_refl; reflexivity|].
    apply orb_true_iff. right. apply MP. exists a. split; [lia|exact Pa].
Qed.

(** the permutation that moves the pivot columns to the front *)
Lemma split_perm {A} (p : A -> bool) l : Permutation.Permutation (filter p l ++ filter (fun x => negb (p x)) l) l.
Proof.
  induction l as [|a l IH]; [constructor|]. cbn. destruct (p a); cbn; [constructor; exact IH|].
  etransitivity; [symmetry; apply Permutation.Permutation_middle|]. constructor. exact IH.
Qed.
Lemma elems_negb (b : bset) : bs_elems (map negb b) = filter (fun x => negb (bs_mem b x)) (seq 0 (length b)).
Proof.
  unfold bs_elems. rewrite map_length. apply filter_ext_in. intros i Hi. apply in_seq in Hi. unfold bs_mem.
  rewrite (nth_indep _ false true) by (rewrite map_length; lia). change true with (negb false). apply map_nth.
Qed.
Lemma pivots_perm (b : bset) : is_perm (length b) (bs_elems b ++ bs_elems (map negb b)).
Proof.
  rewrite elems_negb. unfold bs_elems. pose proof (split_perm (bs_mem b) (seq 0 (length b))) as P. split.
  - rewrite (Permutation.Permutation_length P). apply seq_length.
  - split; [apply (Permutation.Permutation_NoDup (Permutation.Permutation_sym P)); apply seq_NoDup|].
    intros x Hx. apply (Permutation.Permutation_in _ P) in Hx. apply in_seq in Hx. lia.
Qed.
Lemma adjusted (b : bset) : bs_size b <= bs_position b (bs_size b) -> bs_elems b = seq 0 (bs_size b).
Proof.
  intros H. set (k := bs_size b) in *. unfold bs_position, bs_size in H.
  assert (Lk : k <= length b) by (unfold k, bs_size; apply filter_le).
  assert (A : forallb (fun x => x) (firstn k b) = true).
  { apply all_members. rewrite firstn_length. pose proof (filter_le (fun x : bool => x) (firstn k b)). rewrite firstn_length in H0. lia. }
  assert (I : forall i, i < k -> bs_mem b i = true).
  { intros i Hi. rewrite forallb_forall in A. apply A. unfold bs_mem.
    rewrite <- (firstn_skipn k b) at 1. rewrite app_nth1 by (rewrite firstn_length; lia). apply nth_In. rewrite firstn_length. lia. }
  apply sorted_ext; [apply sorted_seq_filter|rewrite <- (map_id (seq 0 k)); apply sorted_map_seq; intros; lia|].
  assert (incl (seq 0 k) (bs_elems b)) by (intros i Hi; apply in_seq in Hi; apply elems_In; apply I; lia).
  intros x. split; [|apply H0].
  apply (NoDup_length_incl (seq_NoDup k 0)); [|exact H0]. rewrite seq_length. unfold k. rewrite size_elems. lia.
Qed.

Lemma diagonalise_ok M : is_mx M m n f ->
  gives (diagonalise fits M) (fun '(diagonal, row, col) => exists r dd rho gamma,
     is_vec diagonal r dd /\ is_mx row m m rho /\ is_mx col n n gamma /\ unimodular m rho /\ det n gamma = 1%Z /\
     (r <= 1 -> det m rho = 1%Z) /\ r <= m /\ r <= n /\
     feq m n (fmul n (fmul m rho f) gamma) (fun i j => if (i =? j) && (i <? r) then dd i else 0%Z) /\
     (forall i, i < r -> dd i <> 0%Z) /\ (forall i, 0 < i < r -> (0 < dd i)%Z)) E.
Proof.
  intros HM. unfold diagonalise. rewrite (is_mx_rows _ _ _ _ HM), (is_mx_cols _ _ _ _ HM).
  eapply gives_bind; [apply zid_ok|]. intros row HR. eapply gives_bind; [apply zid_ok|]. intros col HC.
  assert (F0 : factored m n f f delta delta).
  { intros a b Ha Hb. rewrite fmul_id_r by exact Hb. symmetry. apply fmul_id_l. exact Ha. }
  destruct ((n =? 0) || (m =? 0)) eqn:Z0.
  { apply gives_ok. exists 0, (fun _ => 0%Z), delta, delta. split; [split; [reflexivity|intros; lia]|].
    split; [exact HR|]. split; [exact HC|]. split; [apply unimodular_delta|]. split; [apply det_delta|].
    split; [intros _; apply det_delta|]. split; [lia|]. split; [lia|]. split; [|split; intros; lia].
    intros i j Hi Hj. apply orb_true_iff in Z0. rewrite !Nat.eqb_eq in Z0. lia. }
  apply orb_false_iff in Z0. rewrite !Nat.eqb_neq in Z0.
  eapply gives_bind; [apply (gives_upto0 diag_inv); [| |intros s Hs; exact Hs]|].
  { exists f, delta, delta, (fun _ => 0), (fun _ => 0%Z). split; [exact HM|]. split; [exact HR|]. split; [exact HC|]. split; [exact F0|].
    split; [apply unimodular_delta|]. split; [intros _; apply det_delta|]. split; [reflexivity|]. split; [apply det_delta|]. split; [lia|].
    split; [split; [reflexivity|intros; lia]|]. split; [intros; lia|]. split; [intros; lia|]. split; [intros; lia|]. split; [intros; lia|].
    split; [intros; lia|]. split; [apply new_len|]. intros b. rewrite mem_new. split; [discriminate|]. intros (a & Ha & _). lia. }
  { intros l st Hl Hst. apply diag_column_ok; assumption. }
  intros [[[[[[[M1 row1] col1] rm] cm] diagonal] piv] k].
  intros (g & rho & gamma & pi & dd & HM1 & HR1 & HC1 & HF & UR & DR & _ & DC & Hk & HD & PD & HT & HL & HP & HI & LP & MP).
  assert (HE : bs_elems piv = map pi (seq 0 k)).
  { apply sorted_ext; [apply sorted_seq_filter|apply sorted_map_seq; intros; apply HI; lia|]. intros x. rewrite elems_In, MP, in_map_iff.
    split; [intros (a & Ha & Pa); exists a; split; [exact Pa|apply in_seq; lia]|intros (a & Pa & Ha); apply in_seq in Ha; exists a; split; [lia|exact Pa]]. }
  assert (HS : bs_size piv = k) by (rewrite size_elems, HE, map_length; apply seq_length).
  pose proof (pivots_perm piv) as PP. set (L := bs_elems piv ++ bs_elems (map negb piv)) in *. rewrite LP in PP.
  assert (LE : length (bs_elems piv) = k) by (rewrite HE, map_length; apply seq_length).
  assert (Hkn : k <= n). { rewrite <- LP, <- HS. unfold bs_size. apply filter_le. }
  assert (NL : forall b, b < k -> nth b L 0 = pi b).
  { intros b Hb. unfold L. rewrite app_nth1 by lia. rewrite HE. rewrite (nth_indep _ 0 (pi 0)) by (rewrite map_length, seq_length; exact Hb).
    rewrite map_nth, seq_nth by exact Hb. reflexivity. }
  assert (NL' : forall b, k <= b < n -> forall a, a < k -> nth b L 0 <> pi a).
  { intros b Hb a Ha X. assert (In (nth b L 0) (bs_elems (map negb piv))) as I.
    { unfold L. rewrite app_nth2 by lia. apply nth_In. destruct PP as [PL _]. unfold L in PL. rewrite app_length in PL. lia. }
    rewrite elems_negb in I. apply filter_In in I. destruct I as [_ I]. rewrite X in I.
    assert (bs_mem piv (pi a) = true) as Y by (apply MP; exists a; auto). rewrite Y in I. discriminate. }
  assert (NB : forall b, b < n -> nth b L 0 < n).
  { intros b Hb. apply PP. apply nth_In. destruct PP as [-> _]. exact Hb. }
  (* the matrix with its columns permuted *)
  eapply gives_bind with (P := fun '(col, cm') => exists gamma', is_mx col n n gamma' /\ det n gamma' = sgn cm' /\
     feq m n (fmul n (fmul m rho f) gamma') (fun i j => if (i =? j) && (i <? k) then dd i else 0%Z)).
  { assert (GG : forall gamma', (forall a b, a < n -> b < n -> gamma' a b = gamma a (nth b L 0)) ->
       feq m n (fmul n (fmul m rho f) gamma') (fun i j => if (i =? j) && (i <? k) then dd i else 0%Z)).
    { intros gamma' Eg i j Hi Hj. rewrite (fmul_ext_col n _ gamma' (fun a b => gamma a (nth b L 0))) by (intros; apply Eg; assumption).
      change (fmul n (fmul m rho f) gamma i (nth j L 0) = if (i =? j) && (i <? k) then dd i else 0%Z).
      rewrite <- HF by auto. destruct (Nat.lt_ge_cases i k) as [ik|ik]; [|rewrite HL by auto; nb].
      rewrite HT by auto. destruct (Nat.lt_ge_cases j k) as [jk|jk].
      - rewrite NL by exact jk. destruct (Nat.lt_trichotomy i j) as [c|[c|c]].
        + pose proof (HI i j c jk). nb.
        + subst j. nb.
        + pose proof (HI j i c ik). nb.
      - destruct (Nat.eqb_spec (nth j L 0) (pi i)) as [X|X]; [destruct (NL' j ltac:(lia) i ik X)|]. nb. }
    destruct (Nat.ltb_spec (bs_position piv (bs_size piv)) (bs_size piv)) as [lt|ge].
    - eapply gives_bind; [apply (pull_back_columns_ok 0%Z n n n gamma L PP (le_n n) col1 HC1)|]. intros col2 HC2.
      rewrite (is_negative_ok n L PP). cbn [of_option bind]. apply gives_ok.
      eexists. split; [exact HC2|]. split.
      + rewrite (det_ext (n := n) (g := fun a b => gamma a (nth b L 0))) by (intros a b Ha Hb; cbv beta; nb).
        rewrite (det_perm n gamma L PP), DC, <- sgn_xor, xorb_comm. reflexivity.
      + apply GG. intros a b Ha Hb. cbv beta. nb.
    - apply gives_ok. exists gamma. split; [exact HC1|]. split; [exact DC|]. apply GG. intros a b Ha Hb. f_equal.
      pose proof (adjusted piv ge) as AD. rewrite HS in AD.
      destruct (Nat.lt_ge_cases b k) as [bk|bk].
      + unfold L. rewrite AD. rewrite app_nth1 by (rewrite seq_length; lia). rewrite seq_nth by exact bk. reflexivity.
      + assert (EL : L = seq 0 n).
        { unfold L. rewrite AD, elems_negb, LP. replace n with (k + (n - k)) by lia. rewrite !seq_app. f_equal. rewrite filter_app.
          assert (M1' : forall x, bs_mem piv x = true <-> x < k).
          { intros x. rewrite <- elems_In, AD, in_seq. lia. }
          rewrite filter_all with (l := seq (0 + k) (n - k)).
          - replace (filter (fun x => negb (bs_mem piv x)) (seq 0 k)) with (@nil nat); [reflexivity|]. symmetry.
            assert (Q : forall l, (forall x, In x l -> x < k) -> filter (fun x => negb (bs_mem piv x)) l = []).
            { induction l as [|x l IH]; intros Q; [reflexivity|]. cbn. rewrite (proj2 (M1' x)) by (apply Q; left; reflexivity). apply IH. intros y Hy. apply Q. right. exact Hy. }
            apply Q. intros x Hx. apply in_seq in Hx. lia.
          - intros x Hx. apply in_seq in Hx. apply negb_true_iff. destruct (bs_mem piv x) eqn:X; [|reflexivity]. apply M1' in X. lia. }
        rewrite EL, seq_nth by exact Hb. reflexivity. }
  intros [col2 cm2] (gamma2 & HC2 & DC2 & HG).
  set (neg := (0 <? length diagonal) && negb (Bool.eqb rm cm2)).
  destruct HD as [LD GD].
  eapply gives_bind with (P := fun w => is_vec w k (fun i => if (i =? 0) then (sgn (xorb rm cm2) * dd i)%Z else dd i)).
  { fold neg. destruct neg eqn:Ng; unfold neg in Ng.
    - apply andb_true_iff in Ng. destruct Ng as [N1 N2]. apply Nat.ltb_lt in N1.
      eapply bind_vget; [split; [exact LD|exact GD]|lia|]. apply bind_chk; [auto|].
      eapply gives_vput_vec; [split; [exact LD|exact GD]|lia|]. intros w Hw. eapply is_vec_ext; [exact Hw|].
      intros i Hi. unfold upd1. destruct (Nat.eqb_spec i 0) as [->|]; [|reflexivity]. destruct rm, cm2; try discriminate; cbn [xorb sgn]; lia.
    - apply gives_ok. split; [exact LD|]. intros i Hi. rewrite GD by exact Hi. f_equal.
      destruct (Nat.eqb_spec i 0) as [->|]; [|reflexivity]. apply andb_false_iff in Ng.
      destruct Ng as [Ng|Ng]; [apply Nat.ltb_ge in Ng; lia|]. destruct rm, cm2; try discriminate; cbn [xorb sgn]; lia. }
  intros diagonal2 HD2.
  eapply gives_bind with (P := fun r => is_mx r m m (fun a b => if a =? 0 then (rho a b * sgn rm)%Z else rho a b)).
  { destruct rm.
    - exact (zrowmul_ok fits row1 m m rho 0 (-1) HR1 ltac:(lia)).
    - apply gives_ok. eapply is_mx_ext; [exact HR1|]. intros a b Ha Hb. cbn [sgn]. nb; lia. }
  intros row3 HR3.
  eapply gives_bind with (P := fun r => is_mx r n n (fun a b => if b =? 0 then (gamma2 a b * sgn cm2)%Z else gamma2 a b)).
  { destruct cm2.
    - exact (zcolmul_ok fits col2 n n gamma2 0 (-1) HC2 ltac:(lia)).
    - apply gives_ok. eapply is_mx_ext; [exact HC2|]. intros a b Ha Hb. cbn [sgn]. nb; lia. }
  intros col3 HC3. apply gives_ok.
  set (rho3 := fun a b => if a =? 0 then (rho a b * sgn rm)%Z else rho a b) in *.
  set (gamma3 := fun a b => if b =? 0 then (gamma2 a b * sgn cm2)%Z else gamma2 a b) in *.
  assert (D3 : det m rho3 = (sgn rm * det m rho)%Z) by (unfold rho3; apply (@det_rowmul m rho 0); lia).
  eexists k, _, rho3, gamma3. split; [exact HD2|]. split; [exact HR3|]. split; [exact HC3|].
  split. { apply unimodular_det. rewrite D3. apply unimodular_det in UR. destruct rm; cbn [sgn]; lia. }
  split. { unfold gamma3. rewrite (@det_colmul n gamma2 0) by lia. rewrite DC2. destruct cm2; reflexivity. }
  split. { intros k1. rewrite D3, DR by exact k1. destruct rm; reflexivity. }
  split; [exact Hk|]. split; [exact Hkn|]. split.
  { intros i j Hi Hj.
    assert (X : fmul n (fmul m rho3 f) gamma3 i j = ((if (i =? 0)%nat then sgn rm else 1) * (if (j =? 0)%nat then sgn cm2 else 1) * fmul n (fmul m rho f) gamma2 i j)%Z).
    { unfold fmul at 1 3. rewrite <- zsum_mul_l. apply zsum_ext. intros b Hb.
      assert (Y : fmul m rho3 f i b = ((if (i =? 0)%nat then sgn rm else 1) * fmul m rho f i b)%Z).
      { unfold fmul. rewrite <- zsum_mul_l. apply zsum_ext. intros a Ha. unfold rho3. destruct (i =? 0); lia. }
      rewrite Y. unfold gamma3. destruct (j =? 0); lia. }
    rewrite X, HG by assumption. cbv beta. destruct (Nat.eqb_spec i j) as [->|ne]; cbn [andb]; [|lia].
    destruct (j <? k); [|lia]. rewrite sgn_xor. destruct (j =? 0); lia. }
  split.
  - intros i Hi. specialize (PD i Hi). cbv beta. destruct (i =? 0); [destruct (xorb rm cm2); cbn [sgn]; lia|lia].
  - intros i Hi. cbv beta. nb. apply PD. lia.
Qed.
End Diag.
