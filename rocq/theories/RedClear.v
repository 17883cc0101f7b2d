(** matreduc::column_clear and row_clear. *)

From Coq Require Import List Arith ZArith Znumtheory Lia Bool.
From Verif Require Import VecModel VecProofs SetModel SetProofs RunModel RunProofs MatModel MatSpec MatProofs MatOps MatOps2 MatArith MatRing MatDiv MatDet RedSpec MatLin RedModel RedGcd.
Import ListNotations.
Open Scope nat_scope.

Lemma fmul_colop n f w j k c a b :
  fmul n f (fun a b => if b =? j then (w a j + c * w a k)%Z else w a b) a b =
  if b =? j then (fmul n f w a j + c * fmul n f w a k)%Z else fmul n f w a b.
Proof.
  unfold fmul. destruct (b =? j); [|reflexivity]. rewrite <- zsum_mul_l, <- zsum_add. apply zsum_ext. intros. lia.
Qed.
Lemma fmul_colmul n f w j c a b :
  fmul n f (fun a b => if b =? j then (w a b * c)%Z else w a b) a b =
  if b =? j then (fmul n f w a b * c)%Z else fmul n f w a b.
Proof.
  unfold fmul. destruct (b =? j); [|reflexivity]. rewrite <- zsum_mul_r. apply zsum_ext. intros. lia.
Qed.
Lemma fmul_rowop n f w j k c a b :
  fmul n (fun a b => if a =? j then (w j b + c * w k b)%Z else w a b) f a b =
  if a =? j then (fmul n w f j b + c * fmul n w f k b)%Z else fmul n w f a b.
Proof.
  unfold fmul. destruct (a =? j); [|reflexivity]. rewrite <- zsum_mul_l, <- zsum_add. apply zsum_ext. intros. lia.
Qed.
Lemma fmul_rowmul n f w j c a b :
  fmul n (fun a b => if a =? j then (w a b * c)%Z else w a b) f a b =
  if a =? j then (fmul n w f a b * c)%Z else fmul n w f a b.
Proof.
  unfold fmul. destruct (a =? j); [|reflexivity]. rewrite <- zsum_mul_r. apply zsum_ext. intros. lia.
Qed.

Section Clear.
Variable fits : Z -> bool.
Notation R := (zarith fits).
Notation E := (overflows fits).
Variables (m n : nat) (f : nat -> nat -> Z).

Lemma gives_opdiv a b : (0 <= a)%Z -> (0 < b)%Z -> gives (opdiv fits a b) (fun q => q = (- (a / b))%Z) E.
Proof.
  intros Ha Hb. unfold opdiv, cdiv. destruct (Z.eqb_spec b 0); [lia|]. 
  eapply gives_bind; [apply (gives_chk fits _ (fun q => q = a / b)%Z); [auto|apply Z.quot_div_nonneg; lia]|].
  intros ? ->. apply gives_chk; [auto|reflexivity].
Qed.
Lemma gcd_sub a b : (0 < b)%Z -> (0 <= a)%Z -> let a' := (a + - (a / b) * b)%Z in (0 <= a' < b)%Z /\ Z.gcd a' b = Z.gcd a b.
Proof.
  intros Hb Ha a'. assert (a' = a mod b)%Z as -> by (unfold a'; rewrite Z.mod_eq by lia; lia).
  split; [apply Z.mod_pos_bound; exact Hb|]. rewrite Z.gcd_mod by lia. apply Z.gcd_comm.
Qed.

Section Columns.
Variables (i j k : nat).
Hypotheses (Hi : i < m) (Hj : j < n) (Hk : k < n) (ne : j <> k).
Definition col_inv (neg : bool) (st : matrix Z * option bool) : Prop :=
  let '(M, o) := st in exists g w,
    is_mx M m n g /\ feq m n g (fmul n f w) /\ det n w = sgn neg /\
    (forall a b, a < m -> b < n -> b <> j -> b <> k -> g a b = f a b) /\
    Z.gcd (g i j) (g i k) = Z.gcd (f i j) (f i k) /\
    match o with
    | None => (0 <= g i j)%Z /\ (0 < g i k)%Z
    | Some false => g i j = 0%Z /\ (0 < g i k)%Z
    | Some true => g i k = 0%Z /\ (0 < g i j)%Z
    end.
Lemma col_mul M g w c : is_mx M m n g -> feq m n g (fmul n f w) ->
  gives (columnMultiply R M j c) (fun M' => exists g' w', is_mx M' m n g' /\ feq m n g' (fmul n f w') /\ det n w' = (c * det n w)%Z /\
    forall a b, a < m -> b < n -> g' a b = if b =? j then (g a b * c)%Z else g a b) E.
Proof.
  intros HM HF. eapply gives_mono; [apply (zcolmul_ok fits M m n g j c HM Hj)|]. intros M' HM'. eexists. eexists. split; [exact HM'|].
  split; [|split; [apply (@det_colmul n w j c Hj)|reflexivity]]. intros a b Ha Hb. rewrite fmul_colmul, <- !HF by assumption. reflexivity.
Qed.
Lemma col_op M g w x y c : x < n -> y < n -> x <> y -> is_mx M m n g -> feq m n g (fmul n f w) ->
  gives (columnOperation R M x y c) (fun M' => exists g' w', is_mx M' m n g' /\ feq m n g' (fmul n f w') /\ det n w' = det n w /\
    forall a b, a < m -> b < n -> g' a b = if b =? x then (g a x + c * g a y)%Z else g a b) E.
Proof.
  intros Hx Hy xy HM HF. eapply gives_mono; [apply (zcolop_ok fits M m n g x y c HM Hx Hy)|]. intros M' HM'. eexists. eexists. split; [exact HM'|].
  split; [|split; [apply (@det_colop n w x y c Hx Hy xy)|reflexivity]]. intros a b Ha Hb. rewrite fmul_colop, <- !HF by assumption. reflexivity.
Qed.

Lemma column_clear_ok M : is_mx M m n f -> (0 < f i k)%Z ->
  gives (column_clear fits M i j k) (fun '(M', neg) => exists g w, is_mx M' m n g /\ feq m n g (fmul n f w) /\ det n w = sgn neg /\
    (forall a b, a < m -> b < n -> b <> j -> b <> k -> g a b = f a b) /\ g i j = 0%Z /\ g i k = Z.gcd (f i j) (f i k)) E.
Proof.
  intros HM P. unfold column_clear. eapply bind_mget; [exact HM|exact Hi|exact Hj|]. cbv zeta.
  set (neg := (f i j <? 0)%Z).
  eapply gives_bind with (P := fun M' => col_inv neg (M', None)).
  { assert (F0 : feq m n f (fmul n f delta)) by (intros a b Ha Hb; symmetry; apply fmul_id_r; exact Hb).
    unfold neg. destruct (Z.ltb_spec (f i j) 0) as [lt|ge].
    - eapply gives_mono; [apply (col_mul M f delta (-1) HM F0)|]. intros M' (g & w & H1 & H2 & H3 & H4).
      exists g, w. split; [exact H1|]. split; [exact H2|]. split; [rewrite H3, det_delta; reflexivity|].
      split; [intros a b Ha Hb n1 n2; rewrite H4 by assumption; nb|]. rewrite !H4 by assumption. rewrite Nat.eqb_refl. destruct (Nat.eqb_spec k j); [congruence|].
      split; [|lia]. replace (f i j * -1)%Z with (- f i j)%Z by lia. apply Z.gcd_opp_l.
    - apply gives_ok. exists f, delta. split; [exact HM|]. split; [exact F0|]. split; [apply det_delta|]. split; [reflexivity|]. split; [reflexivity|]. lia. }
  intros M1 J1. assert (J1' := J1). destruct J1' as (g1 & w1 & HM1 & _ & _ & _ & _ & _ & P1).
  eapply bind_mget; [exact HM1|exact Hi|exact Hk|].
  eapply gives_bind; [apply (gives_loop (col_inv neg) (fun '(M, o) => match o with None => match mget M i k with Ok x => Z.to_nat x | _ => 0 end | _ => 0 end)
     (fun '(_, o) => match o with None => true | Some _ => false end)); [exact J1| | | |intros s Hs Hc; exact (conj Hs Hc)]|].
  { destruct (mget M1 i k) as [x|] eqn:G; [|lia]. assert (gives (mget M1 i k) (fun y => y = g1 i k) E) as X by (eapply gives_mget; [exact HM1|exact Hi|exact Hk|reflexivity]).
    rewrite G in X. cbn in X. lia. }
  { intros [M2 o] _. apply gives_ok. reflexivity. }
  { intros [M2 [o|]] (g & w & H1 & H2 & H3 & H4 & H5 & H6) Hc; [discriminate|]. destruct H6 as [H6 H7].
    assert (Mk : forall (M : matrix Z) g, is_mx M m n g -> mget M i k = Ok (g i k)).
    { intros M0 g0 X. assert (gives (mget M0 i k) (fun y => y = g0 i k) (fun _ => False)) as Y by (eapply gives_mget; [exact X|exact Hi|exact Hk|reflexivity]).
      destruct (mget M0 i k); [cbn in Y; congruence|destruct Y]. }
    assert (HX : match mget M2 i k with Ok x => Z.to_nat x | _ => 0 end = Z.to_nat (g i k)) by (rewrite (Mk _ _ H1); reflexivity).
    rewrite HX. clear HX. split; [lia|].
    eapply bind_mget; [exact H1|exact Hi|exact Hj|]. eapply bind_mget; [exact H1|exact Hi|exact Hk|].
    eapply gives_bind; [apply gives_opdiv; assumption|]. intros q ->.
    eapply gives_bind; [apply (col_op M2 g w j k _ Hj Hk ne H1 H2)|]. intros M3 (g3 & w3 & A1 & A2 & A3 & A4).
    eapply bind_mget; [exact A1|exact Hi|exact Hj|].
    destruct (gcd_sub (g i j) (g i k) H7 H6) as [B1 B2]. cbv zeta in B1, B2.
    assert (Ej : g3 i j = (g i j + - (g i j / g i k) * g i k)%Z) by (rewrite A4 by assumption; rewrite Nat.eqb_refl; reflexivity).
    assert (Ek : g3 i k = g i k) by (rewrite A4 by assumption; nb).
    assert (Eo : forall a b, a < m -> b < n -> b <> j -> b <> k -> g3 a b = f a b) by (intros a b Ha Hb n1 n2; rewrite A4 by assumption; nb; apply H4; assumption).
    rewrite <- Ej in B1, B2. rewrite H5 in B2.
    destruct (Z.eqb_spec (g3 i j) 0) as [z|nz].
    { apply gives_ok. split; [|lia]. exists g3, w3. split; [exact A1|]. split; [exact A2|]. split; [congruence|]. split; [exact Eo|]. split; [congruence|]. lia. }
    eapply bind_mget; [exact A1|exact Hi|exact Hk|]. rewrite Ek.
    eapply gives_bind; [apply gives_opdiv; lia|]. intros q ->.
    eapply gives_bind; [apply (col_op M3 g3 w3 k j _ Hk Hj ltac:(congruence) A1 A2)|]. intros M4 (g4 & w4 & C1 & C2 & C3 & C4).
    eapply bind_mget; [exact C1|exact Hi|exact Hk|].
    destruct (gcd_sub (g i k) (g3 i j) ltac:(lia) ltac:(lia)) as [D1 D2]. cbv zeta in D1, D2.
    assert (Fk : g4 i k = (g i k + - (g i k / g3 i j) * g3 i j)%Z) by (rewrite C4 by assumption; rewrite Nat.eqb_refl, Ek; reflexivity).
    assert (Fj : g4 i j = g3 i j) by (rewrite C4 by assumption; nb).
    assert (Fo : forall a b, a < m -> b < n -> b <> j -> b <> k -> g4 a b = f a b) by (intros a b Ha Hb n1 n2; rewrite C4 by assumption; nb; apply Eo; assumption).
    rewrite <- Fk in D1, D2.
    assert (Fg : Z.gcd (g4 i j) (g4 i k) = Z.gcd (f i j) (f i k)) by (rewrite Z.gcd_comm, Fj, D2, Z.gcd_comm; exact B2).
    apply gives_ok. destruct (Z.eqb_spec (g4 i k) 0) as [z|nz2].
    - split; [|lia]. exists g4, w4. split; [exact C1|]. split; [exact C2|]. split; [congruence|]. split; [exact Fo|]. split; [exact Fg|]. lia.
    - split; [|rewrite (Mk _ _ C1); lia]. exists g4, w4. split; [exact C1|]. split; [exact C2|]. split; [congruence|]. split; [exact Fo|]. split; [exact Fg|]. lia. }
  intros [M2 [[|]|]] [(g & w & H1 & H2 & H3 & H4 & H5 & H6) Hc]; [| |discriminate].
  - eapply gives_bind; [apply (swapColumns_ok M2 m n g j k H1 Hj Hk)|]. intros M3 H7. apply gives_ok.
    eexists. exists (fun a b => w a (if b =? j then k else if b =? k then j else b)). split; [exact H7|].
    destruct H6 as [H6 H8].
    split. { intros a b Ha Hb. apply (H2 a (if b =? j then k else if b =? k then j else b)); [exact Ha|nb]. }
    split. { rewrite (@det_colswap n w j k) by assumption. rewrite H3. unfold neg. destruct (f i j <? 0)%Z; reflexivity. }
    split. { intros a b Ha Hb n1 n2. nb. apply H4; assumption. }
    split; [nb|]. rewrite H6, Z.gcd_0_r in H5. nb.
  - apply gives_ok. exists g, w. split; [exact H1|]. split; [exact H2|]. split; [exact H3|]. split; [exact H4|]. destruct H6 as [H6 H7].
    split; [exact H6|]. rewrite H6, Z.gcd_0_l in H5. lia.
Qed.
End Columns.
Section Rows.
Variables (i j k : nat).
Hypotheses (Hi : i < m) (Hj : j < n) (Hk : k < m) (ne : i <> k).
Definition row_inv (neg : bool) (st : matrix Z * option bool) : Prop :=
  let '(M, o) := st in exists g w,
    is_mx M m n g /\ feq m n g (fmul m w f) /\ det m w = sgn neg /\
    (forall a b, a < m -> b < n -> a <> i -> a <> k -> g a b = f a b) /\
    Z.gcd (g i j) (g k j) = Z.gcd (f i j) (f k j) /\
    match o with
    | None => (0 <= g i j)%Z /\ (0 < g k j)%Z
    | Some false => g i j = 0%Z /\ (0 < g k j)%Z
    | Some true => g k j = 0%Z /\ (0 < g i j)%Z
    end.
Lemma row_mul M g w c : is_mx M m n g -> feq m n g (fmul m w f) ->
  gives (rowMultiply R M i c) (fun M' => exists g' w', is_mx M' m n g' /\ feq m n g' (fmul m w' f) /\ det m w' = (c * det m w)%Z /\
    forall a b, a < m -> b < n -> g' a b = if a =? i then (g a b * c)%Z else g a b) E.
Proof.
  intros HM HF. eapply gives_mono; [apply (zrowmul_ok fits M m n g i c HM Hi)|]. intros M' HM'. eexists. eexists. split; [exact HM'|].
  split; [|split; [apply (@det_rowmul m w i c Hi)|reflexivity]]. intros a b Ha Hb. rewrite fmul_rowmul, <- !HF by assumption. reflexivity.
Qed.
Lemma row_op M g w x y c : x < m -> y < m -> x <> y -> is_mx M m n g -> feq m n g (fmul m w f) ->
  gives (rowOperation R M x y c) (fun M' => exists g' w', is_mx M' m n g' /\ feq m n g' (fmul m w' f) /\ det m w' = det m w /\
    forall a b, a < m -> b < n -> g' a b = if a =? x then (g x b + c * g y b)%Z else g a b) E.
Proof.
  intros Hx Hy xy HM HF. eapply gives_mono; [apply (zrowop_ok fits M m n g x y c HM Hx Hy)|]. intros M' HM'. eexists. eexists. split; [exact HM'|].
  split; [|split; [apply (@det_rowop m w x y c Hx Hy xy)|reflexivity]]. intros a b Ha Hb. rewrite fmul_rowop, <- !HF by assumption. reflexivity.
Qed.

Lemma row_clear_ok M : is_mx M m n f -> (0 < f k j)%Z ->
  gives (row_clear fits M i j k) (fun '(M', neg) => exists g w, is_mx M' m n g /\ feq m n g (fmul m w f) /\ det m w = sgn neg /\
    (forall a b, a < m -> b < n -> a <> i -> a <> k -> g a b = f a b) /\ g i j = 0%Z /\ g k j = Z.gcd (f i j) (f k j)) E.
Proof.
  intros HM P. unfold row_clear. eapply bind_mget; [exact HM|exact Hi|exact Hj|]. cbv zeta.
  set (neg := (f i j <? 0)%Z).
  eapply gives_bind with (P := fun M' => row_inv neg (M', None)).
  { assert (F0 : feq m n f (fmul m delta f)) by (intros a b Ha Hb; symmetry; apply fmul_id_l; exact Ha).
    unfold neg. destruct (Z.ltb_spec (f i j) 0) as [lt|ge].
    - eapply gives_mono; [apply (row_mul M f delta (-1) HM F0)|]. intros M' (g & w & H1 & H2 & H3 & H4).
      exists g, w. split; [exact H1|]. split; [exact H2|]. split; [rewrite H3, det_delta; reflexivity|].
      split; [intros a b Ha Hb n1 n2; rewrite H4 by assumption; nb|]. rewrite !H4 by assumption. rewrite Nat.eqb_refl. destruct (Nat.eqb_spec k i); [congruence|].
      split; [|lia]. replace (f i j * -1)%Z with (- f i j)%Z by lia. apply Z.gcd_opp_l.
    - apply gives_ok. exists f, delta. split; [exact HM|]. split; [exact F0|]. split; [apply det_delta|]. split; [reflexivity|]. split; [reflexivity|]. lia. }
  intros M1 J1. assert (J1' := J1). destruct J1' as (g1 & w1 & HM1 & _ & _ & _ & _ & _ & P1).
  eapply bind_mget; [exact HM1|exact Hk|exact Hj|].
  eapply gives_bind; [apply (gives_loop (row_inv neg) (fun '(M, o) => match o with None => match mget M k j with Ok x => Z.to_nat x | _ => 0 end | _ => 0 end)
     (fun '(_, o) => match o with None => true | Some _ => false end)); [exact J1| | | |intros s Hs Hc; exact (conj Hs Hc)]|].
  { destruct (mget M1 k j) as [x|] eqn:G; [|lia]. assert (gives (mget M1 k j) (fun y => y = g1 k j) E) as X by (eapply gives_mget; [exact HM1|exact Hk|exact Hj|reflexivity]).
    rewrite G in X. cbn in X. lia. }
  { intros [M2 o] _. apply gives_ok. reflexivity. }
  { intros [M2 [o|]] (g & w & H1 & H2 & H3 & H4 & H5 & H6) Hc; [discriminate|]. destruct H6 as [H6 H7].
    assert (Mk : forall (M : matrix Z) g, is_mx M m n g -> mget M k j = Ok (g k j)).
    { intros M0 g0 X. assert (gives (mget M0 k j) (fun y => y = g0 k j) (fun _ => False)) as Y by (eapply gives_mget; [exact X|exact Hk|exact Hj|reflexivity]).
      destruct (mget M0 k j); [cbn in Y; congruence|destruct Y]. }
    assert (HX : match mget M2 k j with Ok x => Z.to_nat x | _ => 0 end = Z.to_nat (g k j)) by (rewrite (Mk _ _ H1); reflexivity).
    rewrite HX. clear HX. split; [lia|].
    eapply bind_mget; [exact H1|exact Hi|exact Hj|]. eapply bind_mget; [exact H1|exact Hk|exact Hj|].
    eapply gives_bind; [apply gives_opdiv; assumption|]. intros q ->.
    eapply gives_bind; [apply (row_op M2 g w i k _ Hi Hk ne H1 H2)|]. intros M3 (g3 & w3 & A1 & A2 & A3 & A4).
    eapply bind_mget; [exact A1|exact Hi|exact Hj|].
    destruct (gcd_sub (g i j) (g k j) H7 H6) as [B1 B2]. cbv zeta in B1, B2.
    assert (Ej : g3 i j = (g i j + - (g i j / g k j) * g k j)%Z) by (rewrite A4 by assumption; rewrite Nat.eqb_refl; reflexivity).
    assert (Ek : g3 k j = g k j) by (rewrite A4 by assumption; nb).
    assert (Eo : forall a b, a < m -> b < n -> a <> i -> a <> k -> g3 a b = f a b) by (intros a b Ha Hb n1 n2; rewrite A4 by assumption; nb; apply H4; assumption).
    rewrite <- Ej in B1, B2. rewrite H5 in B2.
    destruct (Z.eqb_spec (g3 i j) 0) as [z|nz].
    { apply gives_ok. split; [|lia]. exists g3, w3. split; [exact A1|]. split; [exact A2|]. split; [congruence|]. split; [exact Eo|]. split; [congruence|]. lia. }
    eapply bind_mget; [exact A1|exact Hk|exact Hj|]. rewrite Ek.
    eapply gives_bind; [apply gives_opdiv; lia|]. intros q ->.
    eapply gives_bind; [apply (row_op M3 g3 w3 k i _ Hk Hi ltac:(congruence) A1 A2)|]. intros M4 (g4 & w4 & C1 & C2 & C3 & C4).
    eapply bind_mget; [exact C1|exact Hk|exact Hj|].
    destruct (gcd_sub (g k j) (g3 i j) ltac:(lia) ltac:(lia)) as [D1 D2]. cbv zeta in D1, D2.
    assert (Fk : g4 k j = (g k j + - (g k j / g3 i j) * g3 i j)%Z) by (rewrite C4 by assumption; rewrite Nat.eqb_refl, Ek; reflexivity).
    assert (Fj : g4 i j = g3 i j) by (rewrite C4 by assumption; nb).
    assert (Fo : forall a b, a < m -> b < n -> a <> i -> a <> k -> g4 a b = f a b) by (intros a b Ha Hb n1 n2; rewrite C4 by assumption; nb; apply Eo; assumption).
    rewrite <- Fk in D1, D2.
    assert (Fg : Z.gcd (g4 i j) (g4 k j) = Z.gcd (f i j) (f k j)) by (rewrite Z.gcd_comm, Fj, D2, Z.gcd_comm; exact B2).
    apply gives_ok. destruct (Z.eqb_spec (g4 k j) 0) as [z|nz2].
    - split; [|lia]. exists g4, w4. split; [exact C1|]. split; [exact C2|]. split; [congruence|]. split; [exact Fo|]. split; [exact Fg|]. lia.
    - split; [|rewrite (Mk _ _ C1); lia]. exists g4, w4. split; [exact C1|]. split; [exact C2|]. split; [congruence|]. split; [exact Fo|]. split; [exact Fg|]. lia. }
  intros [M2 [[|]|]] [(g & w & H1 & H2 & H3 & H4 & H5 & H6) Hc]; [| |discriminate].
  - eapply gives_bind; [apply (swapRows_ok M2 m n g i k H1 Hi Hk)|]. intros M3 H7. apply gives_ok.
    eexists. exists (fun a b => w (if a =? i then k else if a =? k then i else a) b). split; [exact H7|].
    destruct H6 as [H6 H8].
    split. { intros a b Ha Hb. apply (H2 (if a =? i then k else if a =? k then i else a) b); [nb|exact Hb]. }
    split. { rewrite (@det_rowswap m w i k) by assumption. rewrite H3. unfold neg. destruct (f i j <? 0)%Z; reflexivity. }
    split. { intros a b Ha Hb n1 n2. nb. apply H4; assumption. }
    split; [nb|]. rewrite H6, Z.gcd_0_r in H5. nb.
  - apply gives_ok. exists g, w. split; [exact H1|]. split; [exact H2|]. split; [exact H3|]. split; [exact H4|]. destruct H6 as [H6 H7].
    split; [exact H6|]. rewrite H6, Z.gcd_0_l in H5. lia.
Qed.
End Rows.
End Clear.
