(** matreduc::column_echelon brings a matrix into echelon form. *)

From Coq Require Import List Arith ZArith Lia Bool Sorting.Sorted.
From Verif Require Import VecModel VecProofs SetModel SetProofs RunModel RunProofs MatModel MatSpec MatProofs MatOps MatOps2 MatArith MatRing MatDiv MatDet RedSpec MatLin RedModel RedGcd.
Import ListNotations.
Open Scope nat_scope.

(** increasing lists with the same elements are equal *)
Lemma sorted_ext (a b : list nat) : StronglySorted lt a -> StronglySorted lt b -> (forall x, In x a <-> In x b) -> a = b.
Proof.
  intros Ha. revert b. induction Ha as [|x a Sa IH Fa]; intros b Hb H.
  - destruct b as [|y b]; [reflexivity|]. exfalso. apply (H y). left. reflexivity.
  - destruct b as [|y b]; [exfalso; apply (H x); left; reflexivity|]. inversion Hb as [|? ? Sb Fb]; subst.
    rewrite Forall_forall in Fa, Fb.
    assert (x = y).
    { destruct (proj1 (H x) (or_introl eq_refl)) as [e|I1]; [congruence|].
      destruct (proj2 (H y) (or_introl eq_refl)) as [e|I2]; [exact e|]. specialize (Fa _ I2). specialize (Fb _ I1). lia. }
    subst y. f_equal. apply IH; [exact Sb|]. intros z. specialize (H z). cbn in H. split; intros Iz.
    + destruct (proj1 H (or_intror Iz)) as [e|]; [|assumption]. specialize (Fa _ Iz). lia.
    + destruct (proj2 H (or_intror Iz)) as [e|]; [|assumption]. specialize (Fb _ Iz). lia.
Qed.
Lemma sorted_seq_filter f a n : StronglySorted lt (filter f (seq a n)).
Proof.
  revert a. induction n as [|n IH]; intros a; cbn; [constructor|]. destruct (f a); [|apply IH]. constructor; [apply IH|].
  apply Forall_forall. intros x Hx. apply filter_In in Hx. destruct Hx as [Hx _]. apply in_seq in Hx. lia.
Qed.
Lemma sorted_map_seq p a n : (forall j k, a <= j -> j < k -> k < a + n -> p j < p k) -> StronglySorted lt (map p (seq a n)).
Proof.
  revert a. induction n as [|n IH]; intros a H; cbn; [constructor|]. constructor; [apply IH; intros; apply H; lia|].
  apply Forall_forall. intros x Hx. apply in_map_iff in Hx. destruct Hx as (j & <- & Hj). apply in_seq in Hj. apply H; lia.
Qed.

Section Echelon.
Variable fits : Z -> bool.
Variable as_int : Z -> Z.
Hypothesis Hint : forall z, as_int z = z.
Notation R := (zarith fits).
Notation E := (overflows fits).

Definition ech_inv (m n : nat) (f : nat -> nat -> Z) (i : nat) (st : matrix Z * matrix Z * bool * bset * nat) : Prop :=
  let '(M, col, flip, piv, l) := st in
  exists g c q, is_mx M m n g /\ is_mx col n n c /\ feq m n g (fmul n f c) /\ det n c = sgn flip /\ l <= n /\
    (forall j, l <= j < n -> i <= q j < m /\ (0 < g (q j) j)%Z /\ forall a, q j < a < m -> g a j = 0%Z) /\
    (forall j k, l <= j -> j < k -> k < n -> q j < q k) /\
    (forall a b, i <= a < m -> b < l -> g a b = 0%Z) /\
    length piv = m /\ (forall a, bs_mem piv a = true <-> exists j, l <= j < n /\ q j = a).

Lemma ech_step m n f i st : i < m -> ech_inv m n f (S i) st ->
  gives (let '(M, col, flip, piv, l) := st in
     run v <- partial_row M i 0 l;
     run g <- gcd_ops fits v flip (l - 1);
     let '(d, ops, flip) := g in
     if (as_int d =? 0)%Z then Ok (M, col, flip, piv, l) else
     run M <- column_apply R M ops 0;
     run col <- column_apply R col ops 0;
     run piv <- of_option (bs_insert piv i);
     Ok (M, col, flip, piv, l - 1)) (ech_inv m n f i) E.
Proof.
  intros Hi. destruct st as [[[[M col] flip] piv] l]. intros (g & c & q & HM & HC & HF & HD & Hl & HQ & HI & HZ & HP & HB).
  eapply gives_bind; [apply (partial_row_ok M m n g i 0 l HM Hi); lia|]. intros v Hv. rewrite Nat.sub_0_r in Hv.
  eapply gives_bind; [apply (gcd_ops_ok fits l _ v flip (l - 1) Hv); lia|].
  intros [[d ops] flip'] (IG & I0 & o & HO & HDo & HX & _). rewrite Hint. destruct (Z.eqb_spec d 0) as [d0|dn].
  { apply gives_ok. exists g, c, q. rewrite (I0 d0). repeat (split; [assumption|]).
    split. { intros j Hj. destruct (HQ j Hj) as [? ?]. split; [lia|assumption]. }
    split; [exact HI|]. split; [|split; assumption].
    intros a b Ha Hb. destruct (Nat.eq_dec a i) as [->|]; [|apply HZ; lia].
    destruct IG as (_ & IG & _). specialize (IG b Hb). cbv beta in IG. rewrite Nat.add_0_l in IG. rewrite d0 in IG.
    destruct IG as [z IG]. lia. }
  assert (Ll : 0 < l).
  { destruct l; [|lia]. exfalso. apply dn. destruct IG as (P & _ & IG).
    specialize (IG 0%Z). destruct IG as [z Hz]; [intros; lia|lia]. }
  eapply gives_bind; [apply (zcolumn_apply_ok fits M m n g ops l o 0 HM HO); lia|]. intros M' HM'.
  eapply gives_bind; [apply (zcolumn_apply_ok fits col n n c ops l o 0 HC HO); lia|]. intros col' HC'.
  destruct (insert_ok piv i ltac:(lia)) as (piv' & EP & LP & MP). rewrite EP. apply gives_ok.
  set (g' := fmul n g (embed 0 l o)) in *. set (c' := fmul n c (embed 0 l o)) in *.
  assert (Gl : forall a b, b < l -> g' a b = frow l (g a) o b).
  { intros a b Hb. unfold g'. rewrite fmul_embed_r by lia. nb. unfold frow. apply zsum_ext. intros k Hk. rewrite Nat.sub_0_r. reflexivity. }
  assert (Gg : forall a b, l <= b < n -> g' a b = g a b).
  { intros a b Hb. unfold g'. rewrite fmul_embed_r by lia. nb. }
  assert (Gi : forall b, b < l -> g' i b = if b =? l - 1 then d else 0%Z).
  { intros b Hb. rewrite Gl by exact Hb. rewrite <- HX by exact Hb. reflexivity. }
  assert (Gz : forall a b, i < a < m -> b < l -> g' a b = 0%Z).
  { intros a b Ha Hb. rewrite Gl by exact Hb. apply zsum_zero. intros k Hk. rewrite HZ by lia. lia. }
  exists g', c', (upd1 q (l - 1) i).
  split; [exact HM'|]. split; [exact HC'|].
  split. { intros a b Ha Hb. unfold g', c'. rewrite <- fmul_assoc. apply fmul_ext_row. intros j Hj. apply HF; assumption. }
  split. { unfold c'. rewrite det_fmul, det_embed' by lia. rewrite HD, HDo, <- sgn_xor. destruct flip, flip'; reflexivity. }
  split; [lia|].
  split. { intros j Hj. unfold upd1. destruct (Nat.eqb_spec j (l - 1)) as [->|ne].
    - split; [lia|]. rewrite Gi by lia. rewrite Nat.eqb_refl. split; [destruct IG as [IG _]; lia|]. intros a Ha. apply Gz; lia.
    - destruct (HQ j ltac:(lia)) as (Q1 & Q2 & Q3). split; [lia|]. rewrite Gg by lia. split; [exact Q2|].
      intros a Ha. rewrite Gg by lia. apply Q3. exact Ha. }
  split. { intros j k Hj Hjk Hk. unfold upd1. destruct (Nat.eqb_spec k (l - 1)); [lia|].
    destruct (Nat.eqb_spec j (l - 1)) as [->|ne]; [destruct (HQ k ltac:(lia)); lia|]. apply HI; lia. }
  split. { intros a b Ha Hb. destruct (Nat.eq_dec a i) as [->|]; [rewrite Gi by lia; nb|apply Gz; lia]. }
  split; [congruence|].
  intros a. rewrite MP. unfold upd1. split.
  - intros H. apply orb_true_iff in H. destruct H as [H|H];
      [apply Nat.eqb_eq in H; exists (l - 1); split; [lia|rewrite Nat.eqb_refl; auto]|].
    apply HB in H. destruct H as (j & Hj & Qj). exists j. split; [lia|]. nb.
  - intros (j & Hj & Qj). destruct (Nat.eqb_spec a i) as [e|ne]; [reflexivity|]. apply HB. exists j.
    destruct (Nat.eqb_spec j (l - 1)); [congruence|]. split; [lia|exact Qj].
Qed.

(** moving column l to place e *)
Lemma rotate_ok col n c l e : is_mx col n n c -> l <= e -> e < n ->
  gives (run cc <- mat_column 0%Z col l;
     run col <- upto (e - l) l (fun j col => run c <- mat_column 0%Z col (S j); set_column col j c) col;
     set_column col e cc) (fun C => is_mx C n n (rotate l e c)) E.
Proof.
  intros HC Hl He. eapply gives_bind; [apply (column_ok 0%Z col n n c l HC); lia|]. intros cc Hcc.
  eapply gives_bind; [apply (gives_upto (fun t C => is_mx C n n (fun a b => c a (if (l <=? b) && (b <? t) then S b else b))))|].
  - eapply is_mx_ext; [exact HC|]. intros a b Ha Hb. f_equal. nb.
  - intros t C Ht H. eapply gives_bind; [apply (column_ok 0%Z C n n _ (S t) H); lia|]. intros v Hv.
    eapply gives_mono; [apply (set_column_ok C n n _ t v _ H ltac:(lia) Hv)|]. intros C' HC'.
    eapply is_mx_ext; [exact HC'|]. intros a b Ha Hb. cbv beta. nb; f_equal; lia.
  - intros C H. replace (l + (e - l)) with e in H by lia.
    eapply gives_mono; [apply (set_column_ok C n n _ e cc _ H He Hcc)|]. intros C' HC'.
    eapply is_mx_ext; [exact HC'|]. intros a b Ha Hb. unfold rotate. cbv beta. nb; f_equal; lia.
Qed.

Lemma column_echelon_ok M m n f : is_mx M m n f ->
  gives (column_echelon fits as_int M) (fun '(M', col, flip, piv) => exists r g c p,
     r <= n /\ is_mx M' m r g /\ is_mx col n n c /\ det n c = sgn flip /\
     feq m n (fmul n f c) (fun i j => if j <? r then g i j else 0%Z) /\
     echelon m r g p /\ length piv = m /\ bs_elems piv = map p (seq 0 r)) E.
Proof.
  intros HM. unfold column_echelon. rewrite (is_mx_rows _ _ _ _ HM), (is_mx_cols _ _ _ _ HM).
  eapply gives_bind; [apply zid_ok|]. intros col HC.
  eapply gives_bind; [apply (gives_downto (ech_inv m n f)); [| |intros s Hs; exact Hs]|].
  - exists f, delta, (fun _ => 0). split; [exact HM|]. split; [exact HC|].
    split. { intros a b Ha Hb. symmetry. apply fmul_id_r. exact Hb. }
    split; [apply det_delta|]. split; [lia|]. split; [intros; lia|]. split; [intros; lia|]. split; [intros; lia|].
    split; [apply new_len|]. intros a. rewrite mem_new. split; [discriminate|]. intros (j & Hj & _). lia.
  - intros i st Hi Hst. apply ech_step; assumption.
  - intros [[[[M1 col1] flip1] piv] L] (g & c & q & HM1 & HC1 & HF & HD & Hl & HQ & HI & HZ & HP & HB).
    eapply gives_bind; [apply (gives_downto (fun t '(M, col, flip) => t <= L /\
        is_mx M m (n - (L - t)) (fun a b => g a (if b <? t then b else b + (L - t))) /\
        exists c', is_mx col n n c' /\ det n c' = sgn flip /\ (forall a b, c' a b = c a (
          if b <? t then b else if b <? n - (L - t) then b + (L - t) else if b <? n then b - (n - L) else b))));
        [| |intros s Hs; exact Hs]|].
    + split; [lia|]. split.
      * rewrite Nat.sub_diag, Nat.sub_0_r. eapply is_mx_ext; [exact HM1|]. intros a b Ha Hb. f_equal. nb.
      * exists c. split; [exact HC1|]. split; [exact HD|]. intros a b. f_equal. nb.
    + intros l [[M2 col2] flip2] Hlt (Ht & HM2 & c2 & HC2 & HD2 & E2).
      eapply gives_bind; [apply (eraseColumn_ok M2 m _ _ l HM2); lia|]. intros M3 HM3.
      set (e := n - (L - l)). replace (n - (L - S l) - 1) with e in HM3 by (unfold e; lia).
      rewrite (is_mx_cols _ _ _ _ HM3).
      pose proof (rotate_ok col2 n c2 l e HC2 ltac:(unfold e; lia) ltac:(unfold e; lia)) as RO.
      revert RO. destruct (mat_column 0%Z col2 l) as [cc|er]; cbn [bind]; [|intros RO; exact RO].
      destruct (upto (e - l) l _ col2) as [col3|er]; cbn [bind]; [|intros RO; exact RO].
      intros RO. eapply gives_bind; [exact RO|]. intros col4 HC4. apply gives_ok.
      split; [lia|]. split.
      { eapply is_mx_ext; [exact HM3|]. intros a b Ha Hb. cbv beta. f_equal. unfold e in *. nb. }
      exists (rotate l e c2). split; [exact HC4|]. split.
      { rewrite det_rotate by (unfold e; lia). rewrite HD2, sgn_xor. apply Z.mul_comm. }
      intros a b. unfold rotate. rewrite E2. f_equal. unfold e in *. nb.
    + intros [[M2 col2] flip2] (_ & HM2 & c2 & HC2 & HD2 & E2). apply gives_ok.
      rewrite Nat.sub_0_r in *. exists (n - L), (fun a b => g a (b + L)), c2, (fun j => q (j + L)).
      split; [lia|]. split; [eapply is_mx_ext; [exact HM2|]; intros a b Ha Hb; cbv beta; f_equal; nb|].
      split; [exact HC2|]. split; [exact HD2|]. split.
      { intros a b Ha Hb. rewrite <- (fun X => fmul_ext_col n f (fun x y => c x (if y <? n - L then y + L else y - (n - L))) c2 a b X).
        2:{ intros j Hj. rewrite E2. f_equal. nb. }
        change (fmul n f c a (if b <? n - L then b + L else b - (n - L)) = if b <? n - L then g a (b + L) else 0%Z).
        destruct (Nat.ltb_spec b (n - L)); [symmetry; apply HF; lia|]. rewrite <- HF by lia. apply HZ; lia. }
      split. { split.
        - intros j Hj. destruct (HQ (j + L) ltac:(lia)) as (Q1 & Q2 & Q3). split; [lia|]. split; [exact Q2|exact Q3].
        - intros j k Hjk Hk. apply HI; lia. }
      split; [exact HP|]. apply sorted_ext; [apply sorted_seq_filter|apply sorted_map_seq; intros; apply HI; lia|].
      intros a. rewrite elems_In, HB, in_map_iff. split.
      * intros (j & Hj & Qj). exists (j - L). split; [rewrite Nat.sub_add by lia; exact Qj|apply in_seq; lia].
      * intros (j & Qj & Hj). apply in_seq in Hj. exists (j + L). split; [lia|exact Qj].
Qed.
End Echelon.
