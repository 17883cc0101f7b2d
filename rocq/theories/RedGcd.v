(** matreduc::gcd computes the greatest common divisor with the column operations. *)

From Coq Require Import List Arith ZArith Lia Bool.
From Verif Require Import VecModel VecProofs RunModel RunProofs MatModel MatSpec MatProofs MatOps MatArith MatRing MatDiv MatDet RedSpec MatLin RedModel.
Import ListNotations.
Open Scope nat_scope.

(** * operations on integer matrices *)
Section ZOps.
Variable fits : Z -> bool.
Notation R := (zarith fits).
Notation E := (overflows fits).
Notation HR := (zarith_ok fits).
Lemma law0 : law_zero R Z.add Z.mul.
Proof. intros x y. cbn. lia. Qed.
Lemma law1 : law_one R Z.mul.
Proof. intros x. cbn. lia. Qed.
Lemma zid_ok n : gives (mat_id R n) (fun M => is_mx M n n delta) E.
Proof. exact (mat_id_ok R n). Qed.
Lemma zcolop_ok M m n f j k c : is_mx M m n f -> j < n -> k < n ->
  gives (columnOperation R M j k c) (fun N => is_mx N m n (fun a b => if b =? j then (f a j + c * f a k)%Z else f a b)) E.
Proof. exact (columnOperation_ok R _ _ _ _ HR M m n f j k c law0). Qed.
Lemma zrowop_ok M m n f i k c : is_mx M m n f -> i < m -> k < m ->
  gives (rowOperation R M i k c) (fun N => is_mx N m n (fun a b => if a =? i then (f i b + c * f k b)%Z else f a b)) E.
Proof. exact (rowOperation_ok R _ _ _ _ HR M m n f i k c law0). Qed.
Lemma zrowmul_ok M m n f i c : is_mx M m n f -> i < m ->
  gives (rowMultiply R M i c) (fun N => is_mx N m n (fun a b => if a =? i then (f a b * c)%Z else f a b)) E.
Proof. exact (rowMultiply_ok R _ _ _ _ HR M m n f i c law1). Qed.
Lemma zcolmul_ok M m n f j c : is_mx M m n f -> j < n ->
  gives (columnMultiply R M j c) (fun N => is_mx N m n (fun a b => if b =? j then (f a b * c)%Z else f a b)) E.
Proof. exact (columnMultiply_ok R _ _ _ _ HR M m n f j c law1). Qed.
Lemma zrow_apply_ok M m n f ops r g i : is_mx M m n f -> is_mx ops r r g -> i + r <= m ->
  gives (row_apply R M ops i) (fun N => is_mx N m n (fmul m (embed i r g) f)) E.
Proof.
  intros H H2 Hi. eapply gives_mono; [exact (row_apply_ok R _ _ _ _ HR M m n f ops r g i H H2 Hi)|].
  intros N HN. eapply is_mx_ext; [exact HN|]. intros a b Ha Hb. rewrite fmul_embed_l by assumption. reflexivity.
Qed.
Lemma zcolumn_apply_ok M m n f ops r g j : is_mx M m n f -> is_mx ops r r g -> j + r <= n ->
  gives (column_apply R M ops j) (fun N => is_mx N m n (fmul n f (embed j r g))) E.
Proof.
  intros H H2 Hj. eapply gives_mono; [exact (column_apply_ok R _ _ _ _ HR M m n f ops r g j H H2 Hj)|].
  intros N HN. eapply is_mx_ext; [exact HN|]. intros a b Ha Hb. rewrite fmul_embed_r by assumption. reflexivity.
Qed.
Lemma zapply_ok M m n f w x : is_mx M m n f -> is_vec w n x ->
  gives (mat_apply R M w) (fun u => is_vec u m (fapply n f x)) E.
Proof. exact (mat_apply_ok R _ _ _ _ HR M m n f w x). Qed.
End ZOps.

Lemma frow_ext n v v' f f' k : (forall j, j < n -> v j = v' j) -> (forall j, j < n -> f j k = f' j k) ->
  frow n v f k = frow n v' f' k.
Proof. intros H H'. apply zsum_ext. intros j Hj. rewrite H, H' by assumption. reflexivity. Qed.
Lemma frow_delta n v k : k < n -> frow n v delta k = v k.
Proof. intros H. unfold frow. rewrite (zsum_one n k); [rewrite delta_eq; lia|exact H|]. intros i Hi ne. rewrite delta_ne by exact ne. lia. Qed.
Lemma frow_op n v c j cur q k : frow n v (fun a b => if b =? j then (c a j + q * c a cur)%Z else c a b) k =
  (if k =? j then (frow n v c j + q * frow n v c cur)%Z else frow n v c k).
Proof.
  unfold frow. destruct (Nat.eqb_spec k j) as [->|ne]; [|reflexivity].
  rewrite <- zsum_mul_l, <- zsum_add. apply zsum_ext. intros i Hi. lia.
Qed.
Lemma frow_mul n m v f g k : frow m (frow n v f) g k = frow n v (fmul m f g) k.
Proof. exact (fmul_assoc n m (fun _ : nat => v) f g 0 k). Qed.
(** a divisor of v*c divides v when c is invertible *)
Lemma frow_divides n v c e : unimodular n c -> (forall k, k < n -> (e | frow n v c k)%Z) -> forall k, k < n -> (e | v k)%Z.
Proof.
  intros [g [H _]] D k Hk. rewrite <- (frow_delta n v k Hk).
  rewrite (frow_ext n v v delta (fmul n c g) k); [|reflexivity|intros; symmetry; apply H; assumption].
  rewrite <- frow_mul. apply zsum_div. intros i Hi. apply Z.divide_mul_l. apply D. exact Hi.
Qed.

Section Gcd.
Variable fits : Z -> bool.
Notation R := (zarith fits).
Notation E := (overflows fits).
Variable n : nat.
Variable x0 : nat -> Z.
Variable want : bool.

Definition isc (col : option (matrix Z)) (c : nat -> nat -> Z) : Prop :=
  match col with None => want = false | Some C => want = true /\ is_mx C n n c end.
Definition good (x : nat -> Z) (c : nat -> nat -> Z) (s : Z) : Prop :=
  (forall k, k < n -> x k = frow n x0 c k) /\ det n c = s.

(** the scan *)
Lemma gcd_scan_ok row : is_vec row n x0 ->
  gives (gcd_scan fits row) (fun '(act, mn, mi) =>
    act = filter (fun j => negb (x0 j =? 0)%Z) (seq 0 n) /\
    (act <> [] -> In mi act /\ mn = Z.abs (x0 mi) /\ (0 < mn)%Z /\
       (forall j, j < n -> x0 j <> 0%Z -> (mn <= Z.abs (x0 j))%Z /\ (j < mi -> (mn < Z.abs (x0 j))%Z)))) E.
Proof.
  intros Hv. unfold gcd_scan. rewrite (proj1 Hv).
  apply (gives_upto0 (fun t '(act, mn, mi) => act = filter (fun j => negb (x0 j =? 0)%Z) (seq 0 t) /\
    (act = [] -> mn = 0%Z) /\
    (act <> [] -> In mi act /\ mn = Z.abs (x0 mi) /\ (0 < mn)%Z /\
       (forall j, j < t -> x0 j <> 0%Z -> (mn <= Z.abs (x0 j))%Z /\ (j < mi -> (mn < Z.abs (x0 j))%Z))))).
  - split; [reflexivity|]. split; [reflexivity|]. intros H. contradiction.
  - intros i [[act mn] mi] Hi (HA & H0 & H1). eapply bind_vget; [exact Hv|exact Hi|].
    assert (F : filter (fun j => negb (x0 j =? 0)%Z) (seq 0 (S i)) = act ++ (if (x0 i =? 0)%Z then [] else [i])).
    { rewrite seq_S, filter_app. rewrite <- HA. cbn. destruct (x0 i =? 0)%Z; reflexivity. }
    destruct (Z.eqb_spec (x0 i) 0) as [e|ne]; rewrite F.
    + apply gives_ok. rewrite app_nil_r. split; [reflexivity|]. split; [exact H0|]. intros Hn.
      destruct (H1 Hn) as (I1 & I2 & I3 & I4). split; [exact I1|]. split; [exact I2|]. split; [exact I3|].
      intros j Hj nz. apply I4; [|exact nz]. assert (j <> i) by congruence. lia.
    + apply bind_chk; [auto|].
      assert (LA : act = [] \/ act <> []) by (destruct act; [left; reflexivity|right; discriminate]).
      assert (U : forall j, In j act -> j < i). { intros j Hj. rewrite HA in Hj. apply filter_In in Hj. destruct Hj as [Hj _]. apply in_seq in Hj. lia. }
      assert (U' : forall j, j < i -> x0 j <> 0%Z -> In j act).
      { intros j Hj nz. rewrite HA. apply filter_In. split; [apply in_seq; lia|]. apply negb_true_iff. apply Z.eqb_neq. exact nz. }
      destruct ((mn =? 0) || (Z.abs (x0 i) <? mn))%Z eqn:C; apply gives_ok; (split; [reflexivity|]; split; [intros e; destruct act; discriminate|]); intros _.
      * split; [apply in_or_app; right; left; reflexivity|]. split; [reflexivity|]. split; [lia|].
        intros j Hj nz. destruct (Nat.eq_dec j i) as [->|nj]; [split; lia|].
        pose proof (U' j ltac:(lia) nz) as Uj. destruct LA as [LA|LA]; [rewrite LA in Uj; destruct Uj|].
        destruct (H1 LA) as (I1 & I2 & I3 & I4). destruct (I4 j ltac:(lia) nz). apply orb_true_iff in C. lia.
      * apply orb_false_iff in C. destruct LA as [LA|LA]; [rewrite (H0 LA) in C; destruct C; discriminate|].
        destruct (H1 LA) as (I1 & I2 & I3 & I4). pose proof (U _ I1). split; [apply in_or_app; left; exact I1|].
        split; [exact I2|]. split; [exact I3|]. intros j Hj nz. destruct (Nat.eq_dec j i) as [->|nj]; [lia|].
        apply I4; [lia|exact nz].
  - intros [[act mn] mi] (H & _ & H1). auto.
Qed.

(** one traversal of the active entries *)
Lemma sweep_ok cur d s : cur < n -> (0 < d)%Z -> forall act row col mn mi x c,
  is_vec row n x -> isc col c -> good x c s -> x cur = d -> NoDup act -> (forall j, In j act -> j < n) ->
  (0 < mn <= d)%Z -> x mi = mn -> (mi = cur \/ ~ In mi act) ->
  gives (gcd_sweep fits cur d act row col mn mi) (fun '(act', row', col', mn', mi') =>
    exists x' c', is_vec row' n x' /\ isc col' c' /\ good x' c' s /\
      act' = filter (fun j => (j =? cur) || negb (x' j =? 0)%Z) act /\
      (forall k, k = cur \/ ~ In k act -> x' k = x k) /\
      (forall i, c' i cur = c i cur) /\
      (forall j, In j act' -> j <> cur -> (mn' <= x' j < d)%Z) /\
      x' mi' = mn' /\ (mi' = mi /\ mn' = mn \/ In mi' act' /\ (0 < mn' < mn)%Z)) E.
Proof.
  intros Hc Hd act. induction act as [|j t IH]; intros row col mn mi x c Hv Hcol G Xc ND Ba Hm Xm Hmi.
  { cbn [gcd_sweep]. apply gives_ok. exists x, c. split; [exact Hv|]. split; [exact Hcol|]. split; [exact G|].
    split; [reflexivity|]. split; [reflexivity|]. split; [reflexivity|]. split; [intros j []|]. split; [exact Xm|]. left. auto. }
  inversion ND as [|? ? Nj NDt]; subst. cbn [gcd_sweep].
  assert (Bt : forall k, In k t -> k < n) by (intros k Hk; apply Ba; right; exact Hk).
  destruct (Nat.eqb_spec j cur) as [->|ne].
  { eapply gives_bind; [apply (IH row col (x mi) mi x c Hv Hcol G eq_refl NDt Bt Hm eq_refl)|].
    - destruct Hmi as [Hmi|Hmi]; [left; exact Hmi|right; intros I; apply Hmi; right; exact I].
    - intros [[[[act' row'] col'] mn'] mi'] (x' & c' & H1 & H2 & H3 & H4 & H5 & H6 & H7 & H8 & H9). apply gives_ok.
      exists x', c'. split; [exact H1|]. split; [exact H2|]. split; [exact H3|].
      split; [cbn [filter]; rewrite Nat.eqb_refl; cbn [orb]; rewrite H4; reflexivity|].
      split; [intros k [Hk|Hk]; apply H5; [left; exact Hk|right; intros I; apply Hk; right; exact I]|].
      split; [exact H6|]. split; [intros k [Hk|Hk] nk; [lia|apply H7; assumption]|]. split; [exact H8|].
      destruct H9 as [H9|[I9 H9]]; [left; exact H9|right; split; [right; exact I9|exact H9]]. }
  assert (Hj : j < n) by (apply Ba; left; reflexivity).
  eapply bind_vget; [exact Hv|exact Hj|]. unfold adivide at 1.
  destruct (Z.ltb_spec 0 (x cur)) as [_|]; [|lia]. cbn [bind]. set (q := (x j / x cur)%Z).
  set (c1 := fun a b => (if b =? j then (c a j + (- q) * c a cur)%Z else c a b)).
  set (y := (x j - x cur * q)%Z).
  assert (Hy : (0 <= y < x cur)%Z).
  { unfold y, q. pose proof (Z.mod_pos_bound (x j) (x cur) Hd). rewrite Z.mod_eq in H by lia. lia. }
  assert (G1 : good (upd1 x j y) c1 s).
  { destruct G as [G D]. split.
    - intros k Hk. unfold c1. rewrite frow_op. unfold upd1. rewrite <- !G by assumption. unfold y. nb; lia.
    - unfold c1. rewrite det_colop by assumption. exact D. }
  eapply gives_bind with (P := fun col1 => isc col1 c1).
  { destruct col as [C|]; cbn [on_col]; [|exact Hcol].
    eapply gives_bind; [apply bind_chk; [auto|]; apply (zcolop_ok fits C n n c j cur (- q)); [apply Hcol|exact Hj|exact Hc]|].
    intros C' HC'. split; [apply Hcol|exact HC']. }
  intros col1 Hcol1. apply bind_chk; [auto|]. apply bind_chk; [auto|]. fold y.
  eapply bind_vput; [exact Hv|exact Hj|]. intros row1 Hv1.
  assert (X1c : upd1 x j y cur = x cur) by (unfold upd1; nb).
  assert (X1j : upd1 x j y j = y) by (unfold upd1; nb).
  assert (Mj : mi <> j). { intros ->. destruct Hmi as [Hmi|Hmi]; [exact (ne Hmi)|]. apply Hmi. left. reflexivity. }
  assert (X1m : upd1 x j y mi = x mi) by (unfold upd1; nb).
  assert (Hmt : mi = cur \/ ~ In mi t) by (destruct Hmi as [Hmi|Hmi]; [left; exact Hmi|right; intros I; apply Hmi; right; exact I]).
  destruct (Z.eqb_spec y 0) as [y0|yn].
  { eapply gives_mono; [apply (IH row1 col1 (x mi) mi (upd1 x j y) c1 Hv1 Hcol1 G1 X1c NDt Bt Hm X1m Hmt)|].
    intros [[[[act' row'] col'] mn'] mi'] (x' & c' & H1 & H2 & H3 & H4 & H5 & H6 & H7 & H8 & H9).
    exists x', c'. split; [exact H1|]. split; [exact H2|]. split; [exact H3|].
    assert (Xj : x' j = 0%Z) by (rewrite H5 by (right; exact Nj); rewrite X1j; exact y0).
    split. { cbn [filter]. rewrite Xj. destruct (Nat.eqb_spec j cur); [contradiction|]. cbn. exact H4. }
    split. { intros k Hk. rewrite H5.
      - unfold upd1. destruct (Nat.eqb_spec k j) as [->|]; [|reflexivity]. destruct Hk as [Hk|Hk]; [contradiction|]. exfalso. apply Hk. left. reflexivity.
      - destruct Hk as [Hk|Hk]; [left; exact Hk|right; intros I; apply Hk; right; exact I]. }
    split. { intros i. rewrite H6. unfold c1. nb. }
    auto. }
  set (mm := if (y <? x mi)%Z then (y, j) else (x mi, mi)).
  replace (let '(mn, mi0) := mm in _) with (run s0 <- gcd_sweep fits cur (x cur) t row1 col1 (fst mm) (snd mm);
     let '(act0, row2, col2, mn0, mi0) := s0 in Ok (j :: act0, row2, col2, mn0, mi0)).
  2:{ destruct mm. reflexivity. }
  assert (Hmm : (0 < fst mm <= x cur)%Z /\ upd1 x j y (snd mm) = fst mm /\ (snd mm = cur \/ ~ In (snd mm) t) /\
     (fst mm <= y)%Z /\ (snd mm = mi /\ fst mm = x mi \/ snd mm = j /\ fst mm = y /\ (fst mm < x mi)%Z)).
  { unfold mm. destruct (Z.ltb_spec y (x mi)); cbn [fst snd]; repeat split; auto; try lia. }
  destruct Hmm as (M1 & M2 & M3 & M4 & M5).
  eapply gives_bind; [apply (IH row1 col1 (fst mm) (snd mm) (upd1 x j y) c1 Hv1 Hcol1 G1 X1c NDt Bt M1 M2 M3)|].
  intros [[[[act' row'] col'] mn'] mi'] (x' & c' & H1 & H2 & H3 & H4 & H5 & H6 & H7 & H8 & H9). apply gives_ok.
  exists x', c'. split; [exact H1|]. split; [exact H2|]. split; [exact H3|].
  assert (Xj : x' j = y) by (rewrite H5 by (right; exact Nj); exact X1j).
  split. { cbn [filter]. rewrite Xj. destruct (Nat.eqb_spec j cur); [contradiction|]. destruct (Z.eqb_spec y 0); [contradiction|]. cbn. rewrite H4. reflexivity. }
  split. { intros k Hk. rewrite H5.
    - unfold upd1. destruct (Nat.eqb_spec k j) as [->|]; [|reflexivity]. destruct Hk as [Hk|Hk]; [contradiction|]. exfalso. apply Hk. left. reflexivity.
    - destruct Hk as [Hk|Hk]; [left; exact Hk|right; intros I; apply Hk; right; exact I]. }
  split. { intros i. rewrite H6. unfold c1. nb. }
  split. { intros k [<-|Hk] nk; [|apply H7; assumption]. rewrite Xj. lia. }
  split; [exact H8|]. destruct H9 as [[-> ->]|[I9 H9]].
  - destruct M5 as [M5|(M5 & M6 & M7)]; [left; exact M5|]. right. rewrite M5. split; [left; reflexivity|]. lia.
  - right. split; [right; exact I9|]. lia.
Qed.

Lemma filter_filter {A} (f g : A -> bool) l : filter f (filter g l) = filter (fun a => g a && f a) l.
Proof. induction l as [|a l IH]; [reflexivity|]. cbn. destruct (g a); cbn; [destruct (f a)|]; rewrite IH; reflexivity. Qed.

(** the first entry is positive and divides the others *)
Definition easy : Prop := 0 < n /\ (0 < x0 0)%Z /\ forall k, k < n -> (x0 0 | x0 k)%Z.
Definition nonzeros (x : nat -> Z) : list nat := filter (fun j => negb (x j =? 0)%Z) (seq 0 n).
Lemma nonzeros_In x j : In j (nonzeros x) <-> j < n /\ x j <> 0%Z.
Proof.
  unfold nonzeros. rewrite filter_In, in_seq, negb_true_iff, Z.eqb_neq. lia.
Qed.
Lemma nonzeros_NoDup x : NoDup (nonzeros x).
Proof. apply NoDup_filter, seq_NoDup. Qed.

Definition gcd_inv (flip : bool) (st : list nat * list Z * option (matrix Z) * Z * nat) : Prop :=
  let '(act, row, col, mn, mi) := st in
  exists x c, is_vec row n x /\ isc col c /\ good x c (sgn flip) /\ act = nonzeros x /\
    In mi act /\ x mi = mn /\ (0 < mn)%Z /\ (easy -> mi = 0 /\ flip = false /\ forall i, i < n -> c i 0 = delta i 0).

Lemma singleton_or (l : list nat) a : NoDup l -> In a l -> l = [a] \/ exists b, In b l /\ b <> a.
Proof.
  intros ND Ha. destruct l as [|u [|v l]]; [destruct Ha| |].
  - destruct Ha as [->|[]]. left. reflexivity.
  - right. inversion ND as [|? ? N1 N2]; subst. destruct (Nat.eq_dec u a) as [->|ne].
    + exists v. split; [right; left; reflexivity|]. intros ->. apply N1. left. reflexivity.
    + exists u. split; [left; reflexivity|exact ne].
Qed.

Lemma gcd_loop_ok flip st : gcd_inv flip st ->
  gives (loop (S (Z.to_nat (snd (fst st))))
     (fun '(act, _, _, _, _) => Ok (negb (length act =? 1)))
     (fun '(act, row, col, mn, mi) => run d <- vget row mi; gcd_sweep fits mi d act row col mn mi) st)
   (fun '(act, row, col, mn, mi) => gcd_inv flip (act, row, col, mn, mi) /\ act = [mi]) E.
Proof.
  intros H0.
  apply (gives_loop (gcd_inv flip) (fun '(act, _, _, mn, _) => if length act =? 1 then 0 else Z.to_nat mn)
          (fun '(act, _, _, _, _) => negb (length act =? 1))).
  - exact H0.
  - destruct st as [[[[act row] col] mn] mi]. cbn [fst snd]. destruct (length act =? 1); lia.
  - intros [[[[act row] col] mn] mi] _. apply gives_ok. reflexivity.
  - intros [[[[act row] col] mn] mi] (x & c & Hv & Hc & G & HA & Hm & Xm & Pm & Hez) Hl. cbv beta iota.
    destruct (length act =? 1) eqn:La; [discriminate|]. split; [lia|].
    assert (Hmi : mi < n /\ x mi <> 0%Z) by (apply nonzeros_In; rewrite <- HA; exact Hm).
    eapply bind_vget; [exact Hv|apply Hmi|].
    eapply gives_mono.
    { apply (sweep_ok mi (x mi) (sgn flip) ltac:(apply Hmi) ltac:(lia) act row col mn mi x c Hv Hc G eq_refl).
      - rewrite HA. apply nonzeros_NoDup.
      - intros j Hj. rewrite HA in Hj. apply nonzeros_In in Hj. apply Hj.
      - lia.
      - exact Xm.
      - left. reflexivity. }
    intros [[[[act' row'] col'] mn'] mi'] (x' & c' & H1 & H2 & H3 & H4 & H5 & H6 & H7 & H8 & H9).
    assert (Xc : x' mi = x mi) by (apply H5; left; reflexivity).
    assert (HA' : act' = nonzeros x').
    { rewrite H4, HA. unfold nonzeros. rewrite filter_filter. apply filter_ext_in. intros j Hj. apply in_seq in Hj.
      destruct (Nat.eqb_spec j mi) as [->|ne]; cbn [orb].
      - rewrite Xc. destruct (Z.eqb_spec (x mi) 0); [lia|reflexivity].
      - destruct (Z.eqb_spec (x j) 0) as [e|e]; cbn [negb andb]; [|reflexivity].
        rewrite H5; [rewrite e; reflexivity|]. right. rewrite HA, nonzeros_In. tauto. }
    assert (Im : In mi act') by (rewrite HA'; apply nonzeros_In; rewrite Xc; exact Hmi).
    assert (Im' : In mi' act' /\ (0 < mn' <= mn)%Z) by (destruct H9 as [[-> ->]|[I9 B9]]; [split; [exact Im|lia]|split; [exact I9|lia]]).
    split.
    + exists x', c'. split; [exact H1|]. split; [exact H2|]. split; [exact H3|]. split; [exact HA'|].
      split; [apply Im'|]. split; [exact H8|]. split; [lia|]. intros Hz. destruct (Hez Hz) as (Z1 & Z2 & Z3).
      assert (C0 : forall i, i < n -> c' i 0 = delta i 0). { intros i Hi. rewrite <- Z3 by exact Hi. rewrite Z1 in H6. apply H6. }
      split; [|split; [exact Z2|exact C0]].
      destruct H9 as [[-> _]|[I9 B9]]; [exact Z1|]. exfalso.
      destruct Hz as (N0 & P0 & D0).
      assert (Q0 : mn = x0 0).
      { rewrite <- Xm, Z1. destruct G as [G _]. rewrite G by exact N0.
        rewrite (frow_ext n x0 x0 c delta 0) by (auto; intros; apply Z3; assumption). apply frow_delta. exact N0. }
      assert (Dm : (x0 0 | mn')%Z).
      { rewrite <- H8. destruct H3 as [G' _]. rewrite HA' in I9. apply nonzeros_In in I9. rewrite G' by apply I9.
        apply zsum_div. intros i Hi. apply Z.divide_mul_l. apply D0. exact Hi. }
      apply Z.divide_pos_le in Dm; lia.
    + destruct (singleton_or act' mi ltac:(rewrite HA'; apply nonzeros_NoDup) Im) as [->|(b & Hb & nb)]; [cbn; lia|].
      pose proof (H7 b Hb nb) as Q. destruct (length act' =? 1); lia.
  - intros [[[[act row] col] mn] mi] H Hl. split; [exact H|]. apply negb_false_iff, Nat.eqb_eq in Hl.
    destruct H as (x & c & _ & _ & _ & _ & Hm & _). destruct act as [|a [|]]; try discriminate.
    destruct Hm as [->|[]]. reflexivity.
Qed.

Definition gcd_post (flip : bool) (dest : nat) (r : Z * option (matrix Z) * bool) : Prop :=
  let '(d, col, flip') := r in
  is_gcd n x0 d /\ (d = 0%Z -> flip' = flip) /\
  match col with
  | None => want = false
  | Some C => want = true /\ exists c, is_mx C n n c /\ det n c = sgn (xorb flip flip') /\
      (forall k, k < n -> frow n x0 c k = if k =? dest then d else 0%Z) /\
      (easy -> dest = 0 -> d = x0 0 /\ flip' = flip /\ forall i, i < n -> c i 0 = delta i 0)
  end.
Lemma is_gcd_by c d k : unimodular n c -> k < n -> (0 <= d)%Z -> (forall i, i < n -> frow n x0 c i = if i =? k then d else 0%Z) ->
  is_gcd n x0 d.
Proof.
  intros U Hk Hd H. split; [exact Hd|]. split.
  - apply (frow_divides n x0 c d U). intros i Hi. rewrite H by exact Hi. destruct (i =? k); [apply Z.divide_refl|apply Z.divide_0_r].
  - intros e He. specialize (H k Hk). rewrite Nat.eqb_refl in H. rewrite <- H. apply zsum_div. intros i Hi.
    apply Z.divide_mul_l. apply He. exact Hi.
Qed.
Lemma gcd_ok row flip dest : is_vec row n x0 -> (want = true -> 0 < n -> dest < n) ->
  gives (RedModel.gcd fits row want flip dest) (gcd_post flip dest) E.
Proof.
  intros Hv Hdest. unfold RedModel.gcd. rewrite (proj1 Hv).
  eapply gives_bind with (P := fun col => isc col delta).
  { unfold isc. destruct want; [|reflexivity]. eapply gives_bind; [apply zid_ok|]. intros C HC. split; [reflexivity|exact HC]. }
  intros col Hc. eapply gives_bind; [apply gcd_scan_ok; exact Hv|].
  intros [[act mn] mi] [HA HB]. fold (nonzeros x0) in HA.
  assert (G0 : good x0 delta 1%Z). { split; [intros k Hk; symmetry; apply frow_delta; exact Hk|apply det_delta]. }
  destruct act as [|a1 act1].
  { apply gives_ok. cbv beta iota delta [gcd_post].
    assert (Zx : forall k, k < n -> x0 k = 0%Z).
    { intros k Hk. destruct (Z.eq_dec (x0 k) 0) as [e|ne]; [exact e|]. exfalso.
      assert (In k []) as [] by (rewrite HA; apply nonzeros_In; auto). }
    split; [|split; [reflexivity|]].
    - split; [lia|]. split; [intros k Hk; rewrite Zx by exact Hk; apply Z.divide_0_r|]. intros. apply Z.divide_0_r.
    - destruct col as [C|]; [|exact Hc]. split; [apply Hc|]. exists delta. split; [apply Hc|].
      rewrite xorb_nilpotent. split; [apply det_delta|]. split.
      + intros k Hk. rewrite frow_delta by exact Hk. rewrite Zx by exact Hk. destruct (k =? dest); reflexivity.
      + intros (N0 & P0 & _). rewrite Zx in P0 by exact N0. lia. }
  destruct HB as (Im & Em & Pm & Mm); [discriminate|]. rewrite HA in Im. pose proof Im as Im'. apply nonzeros_In in Im'. destruct Im' as [Lm Nm].
  eapply bind_vget; [exact Hv|exact Lm|]. rewrite HA. clear a1 act1 HA.
  assert (Easy0 : easy -> mi = 0 /\ (0 < x0 mi)%Z).
  { intros (N0 & P0 & D0). destruct (Nat.eq_dec mi 0) as [->|ne]; [auto|]. exfalso.
    destruct (Mm 0 N0 ltac:(lia)) as [_ H]. specialize (H ltac:(lia)).
    assert (D : (x0 0 | mn)%Z) by (rewrite Em; apply Z.divide_abs_r; apply D0; exact Lm).
    apply Z.divide_pos_le in D; lia. }
  eapply gives_bind with (P := fun '(row, flip1, col) => gcd_inv (xorb flip flip1) (nonzeros x0, row, col, mn, mi)).
  { destruct (Z.ltb_spec (x0 mi) 0) as [neg|pos].
    - apply bind_chk; [auto|]. eapply bind_vput; [exact Hv|exact Lm|]. intros row1 Hv1.
      set (c1 := fun a b => if b =? mi then (delta a b * (-1))%Z else delta a b).
      assert (G1 : good (upd1 x0 mi (- x0 mi)%Z) c1 (-1)%Z).
      { split; [|unfold c1; rewrite det_colmul by exact Lm; rewrite det_delta; reflexivity].
        intros k Hk. unfold c1, upd1, frow. destruct (k =? mi) eqn:e.
        - apply Nat.eqb_eq in e. subst k. rewrite (zsum_ext n _ (fun j => (x0 j * delta j mi) * (-1)))%Z by (intros; lia).
          rewrite zsum_mul_r. change (zsum n (fun i : nat => (x0 i * delta i mi)%Z)) with (frow n x0 delta mi).
          rewrite frow_delta by exact Hk. lia.
        - symmetry. exact (frow_delta n x0 k Hk). }
      eapply gives_bind with (P := fun col => isc col c1).
      { destruct col as [C|]; cbn [on_col]; [|exact Hc].
        eapply bind_mput; [apply Hc|exact Lm|exact Lm|]. intros C' HC'. split; [apply Hc|].
        eapply is_mx_ext; [exact HC'|]. intros i j Hi Hj. unfold upd, c1, delta. nb; lia. }
      intros col1 Hc1. apply gives_ok.
      exists (upd1 x0 mi (- x0 mi)%Z), c1. split; [exact Hv1|]. split; [exact Hc1|].
      split; [replace (xorb flip (negb flip)) with true by (destruct flip; reflexivity); exact G1|].
      split. { unfold nonzeros. apply filter_ext. intros j. unfold upd1. destruct (Nat.eqb_spec j mi) as [->|]; [|reflexivity].
               destruct (Z.eqb_spec (x0 mi) 0), (Z.eqb_spec (- x0 mi) 0); lia. }
      split; [exact Im|]. split; [unfold upd1; rewrite Nat.eqb_refl; lia|]. split; [exact Pm|]. intros Hz. destruct (Easy0 Hz). lia.
    - apply gives_ok. exists x0, delta. split; [exact Hv|]. split; [exact Hc|].
      rewrite xorb_nilpotent. split; [exact G0|]. split; [reflexivity|]. split; [exact Im|]. split; [lia|]. split; [exact Pm|].
      intros Hz. split; [apply Easy0; exact Hz|]. split; reflexivity. }
  intros [[row1 flip1] col1] HI. eapply gives_bind; [exact (gcd_loop_ok _ _ HI)|].
  intros [[[[act row2] col2] mn2] mi2] [(x & c & HX & HC & [G D] & HA & Hm & Xm & Pm2 & Hez) HS].
  assert (HX0 : forall k, k < n -> frow n x0 c k = if k =? mi2 then mn2 else 0%Z).
  { intros k Hk. rewrite <- G by exact Hk. destruct (Nat.eqb_spec k mi2) as [->|ne]; [exact Xm|].
    destruct (Z.eq_dec (x k) 0) as [e|nz]; [exact e|]. exfalso.
    assert (In k act) as Ik by (rewrite HA; apply nonzeros_In; auto). rewrite HS in Ik. destruct Ik as [->|[]]. congruence. }
  assert (Lm2 : mi2 < n) by (rewrite HA in Hm; apply nonzeros_In in Hm; apply Hm).
  assert (IG : is_gcd n x0 mn2) by (apply (is_gcd_by c mn2 mi2); [apply (sgn_unimodular _ _ _ D)|exact Lm2|lia|exact HX0]).
  assert (Hz2 : easy -> mn2 = x0 0).
  { intros Hz. destruct (Hez Hz) as (Z1 & Z2 & Z3). destruct Hz as (N0 & _). specialize (HX0 0 N0).
    rewrite Z1 in HX0. cbn in HX0. rewrite <- HX0.
    rewrite (frow_ext n x0 x0 c delta 0) by (auto; intros; apply Z3; assumption). apply frow_delta. exact N0. }
  destruct col2 as [C|].
  2:{ apply gives_ok. split; [exact IG|]. split; [lia|exact HC]. }
  destruct HC as [Hw HC].
  destruct (Nat.eqb_spec mi2 dest) as [e|ne].
  { apply gives_ok. split; [exact IG|]. split; [lia|]. split; [exact Hw|]. exists c. split; [exact HC|]. split; [exact D|].
    split; [rewrite <- e; exact HX0|]. intros Hz _. destruct (Hez Hz) as (Z1 & Z2 & Z3).
    split; [apply Hz2; exact Hz|]. split; [destruct flip, flip1; try discriminate; reflexivity|exact Z3]. }
  assert (Ld : dest < n) by (apply Hdest; [exact Hw|lia]).
  eapply gives_bind; [apply (swapColumns_ok C n n c dest mi2 HC Ld Lm2)|]. intros C' HC'. apply gives_ok.
  split; [exact IG|]. split; [lia|]. split; [exact Hw|].
  exists (fun a b => c a (if b =? dest then mi2 else if b =? mi2 then dest else b)). split; [exact HC'|].
  split. { rewrite (@det_colswap n c dest mi2) by (auto). rewrite D. destruct flip, flip1; reflexivity. }
  split.
  { intros k Hk. change (frow n x0 c (if k =? dest then mi2 else if k =? mi2 then dest else k) = if k =? dest then mn2 else 0%Z).
    destruct (Nat.eqb_spec k dest) as [->|n1]; [rewrite HX0, Nat.eqb_refl by exact Lm2; reflexivity|].
    destruct (Nat.eqb_spec k mi2) as [->|n2]; rewrite HX0 by assumption.
    - destruct (Nat.eqb_spec dest mi2); [congruence|reflexivity].
    - destruct (Nat.eqb_spec k mi2); [contradiction|reflexivity]. }
  intros Hz d0. destruct (Hez Hz) as (Z1 & _). congruence.
Qed.
End Gcd.

(** with the matrix wanted *)
Lemma gcd_ops_ok fits n x0 row flip dest : is_vec row n x0 -> (0 < n -> dest < n) ->
  gives (gcd_ops fits row flip dest) (fun '(d, C, flip') =>
    is_gcd n x0 d /\ (d = 0%Z -> flip' = flip) /\
    exists c, is_mx C n n c /\ det n c = sgn (xorb flip flip') /\
      (forall k, k < n -> frow n x0 c k = if k =? dest then d else 0%Z) /\
      (easy n x0 -> dest = 0 -> d = x0 0 /\ flip' = flip /\ forall i, i < n -> c i 0 = delta i 0)) (overflows fits).
Proof.
  intros Hv Hd. unfold gcd_ops. eapply gives_bind; [apply (gcd_ok fits n x0 true row flip dest Hv); intros _; exact Hd|].
  intros [[d [C|]] flip'] (H1 & H2 & H3); [|discriminate]. destruct H3 as [_ H3]. apply gives_ok. auto.
Qed.
