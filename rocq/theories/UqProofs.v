(** The matrices at an involution and the representatives computed with them. *)

From Coq Require Import List Arith ZArith QArith Bool Lia Lqa.
From Verif Require Import VecModel RunModel RunProofs MatModel MatSpec MatLin MatRing MatProofs MatArith MatOps2 MatDiv RedModel RedSpec RedProps LatModel LatProofs ArithModel RatVecModel RatVecSpec RatVecProofs RatVecOps RatVecMore RatVecProps
  F2Model F2Spec F2Proofs F2Ops YvModel YvSpec YvProofs YvAct YvLog ToriSpec ToriLat RootModel DatModel UqModel UqSpec UqMath.
Import ListNotations.
Local Open Scope Z_scope.

Section Maps.
Variable fits : Z -> bool.
Variable as_int : Z -> Z.
Hypothesis Hint : forall z, as_int z = z.
Notation R := (zarith fits).
Theorem real_maps_ok M n th : is_mx M n n th ->
  gives (real_maps fits as_int M) (fun '(mr, lm) => exists k m g, is_mx mr k n m /\ is_mx lm n k g /\ factors n k th m g) (overflows fits).
Proof.
  intros HM. unfold real_maps.
  eapply gives_bind; [eapply mat_negate_ok; [apply (zarith_ok fits)|exact HM]|]. intros A0 HA0. cbn beta in HA0.
  eapply gives_bind; [eapply add_scalar_ok; [apply (zarith_ok fits)|exact HA0]|]. intros A1 HA1. cbn beta in HA1.
  set (f := fun i j : nat => delta i j - th i j).
  assert (HA : is_mx A1 n n f) by (eapply is_mx_ext; [exact HA1|]; intros i j Hi Hj; unfold f, delta; destruct (Nat.eqb_spec i j); lia).
  eapply gives_bind; [apply (C44_column_echelon fits as_int Hint A1 n n f HA)|]. intros [[[A2 col] flip] piv] (r & g & c & p & Rn & HA2 & Hc & Uc & _ & Ec & Ech & _).
  eapply gives_bind; [eapply gives_conv; [intros x H; exact H| |apply (C48_inverse_Z fits as_int Hint col n c Hc)]|].
  { intros e [(_ & H)|H]; [contradiction|exact H]. }
  intros ci (h & Hci & I1 & I2). rewrite (is_mx_cols _ _ _ _ HA2), (is_mx_rows _ _ _ _ HA2).
  eapply gives_bind; [apply (block_ok 0 ci n n h 0 0 r n Hci); lia|]. intros mr Hmr. rewrite !Nat.sub_0_r in Hmr. cbn [gives]. cbn [plus] in Hmr.
  exists r, h, g. split; [exact Hmr|]. split; [exact HA2|]. split; [|split].
  - intros i j Hi Hj. change (delta i j - th i j) with (f i j).
    assert (E : fmul n (fmul n f c) h i j = f i j).
    { transitivity (fapply n f (fun k => fmul n c h k j) i).
      - unfold fmul at 1. change (fapply n (fmul n f c) (fun k => h k j) i = fapply n f (fun k => fmul n c h k j) i). rewrite <- fapply_fapply. reflexivity.
      - rewrite (fapply_ext n f _ (fun k => delta k j)) by (intros k Hk; apply I1; assumption). unfold fapply. apply zsum_delta_r. exact Hj. }
    rewrite <- E. unfold fmul at 1 2. rewrite (zsum_ext n _ (fun k => (if (k <? r)%nat then g i k else 0) * h k j)) by (intros k Hk; rewrite (Ec i k Hi Hk); reflexivity).
    assert (Er : exists d, n = (r + d)%nat) by (exists (n - r)%nat; lia). destruct Er as (d & ->). rewrite zsum_split, (zsum_zero d).
    + rewrite Z.add_0_r. apply zsum_ext. intros k Hk. destruct (Nat.ltb_spec k r); [reflexivity|lia].
    + intros k Hk. destruct (Nat.ltb_spec (r + k) r); [lia|]. ring.
  - intros x H j Hj. apply (echelon_inj n r g p x Ech H j Hj).
  - intros y. exists (fapply n c (fun k => if (k <? r)%nat then y k else 0)). intros j Hj. rewrite fapply_fapply, (fapply_mat n _ delta) by (intros k Hk; apply I2; lia).
    rewrite fapply_delta by lia. destruct (Nat.ltb_spec j r); [reflexivity|lia].
Qed.
End Maps.

(** a record at an involution *)
Definition record_at (n k : nat) (th m g : nat -> nat -> Z) (me : irec) : Prop :=
  is_mx (ir_theta me) n n th /\ is_mx (ir_real me) k n m /\ is_mx (ir_lift me) n k g /\ is_involution n th /\ factors n k th m g.

Section Uniq.
Variable dim : nat.
Variable fits : Z -> bool.
Variables (n k : nat) (th m g : nat -> nat -> Z) (me : irec).
Hypothesis H : record_at n k th m g me.
Notation R := (zarith fits).
Notation E := (overflows fits).
Local Notation F := (proj2 (proj2 (proj2 (proj2 H)))).
Local Notation inv := (proj1 (proj2 (proj2 (proj2 H)))).
Local Notation Hm := (proj1 (proj2 H)).
Local Notation Hl := (proj1 (proj2 (proj2 H))).
Lemma apply_run M a b f v x : is_mx M a b f -> is_vec v b x -> gives (mat_apply R M v) (fun u => is_vec u a (fapply b f x)) E.
Proof. intros HM Hv. eapply mat_apply_ok; [apply (zarith_ok fits)|exact HM|exact Hv]. Qed.
Lemma lambda_unique_run lam x : is_vec lam n x ->
  gives (lambda_unique fits me lam) (fun mu => is_vec mu n (fun i => x i - fapply k g (fun j => fapply n m x j / 2) i)) E.
Proof.
  intros V. unfold lambda_unique. eapply gives_bind; [apply (apply_run _ k n m lam x Hm V)|]. intros v Hv.
  eapply gives_bind; [apply (vmap_part (fun x => adivide x 2) (fun a b => b = a / 2) v k (fapply n m x)); [intros i Hi; reflexivity|exact Hv]|]. intros w (y & Hw & Hy).
  eapply gives_bind; [apply (apply_run _ n k g w y Hl Hw)|]. intros u Hu.
  eapply gives_mono; [eapply vec_sub_ok; [apply (zarith_ok fits)|exact V|exact Hu]|]. intros mu Hmu. cbn beta in Hmu.
  eapply is_vec_ext; [exact Hmu|]. intros i Hi. cbn beta. f_equal. apply fapply_ext. exact Hy.
Qed.
Lemma y_pack_run lam x : (k <= dim)%nat -> is_vec lam n x ->
  gives (y_pack dim fits me lam) (fun y => bsize y = k /\ mod2 k (fapply n m x) (data y)) E.
Proof.
  intros Hk V. unfold y_pack. eapply gives_bind; [apply (apply_run _ k n m lam x Hm V)|]. intros v Hv.
  eapply gives_conv; [| |apply bv_mod2_ok; rewrite (proj1 Hv); exact Hk]; [|intros e []].
  intros w (S1 & Cw). rewrite (proj1 Hv) in S1, Cw. split; [apply S1|]. split; [apply S1|]. intros i Hi. rewrite Cw by exact Hi. f_equal. apply VecProofs.get_nth_eq, (proj2 Hv i Hi).
Qed.
Lemma y_lift_run y : (k <= dim)%nat -> bsize y = k -> gives (y_lift dim fits me y) (fun v => is_vec v n (fapply k g (bit (data y)))) E.
Proof.
  intros Hk Sy. unfold y_lift. rewrite Sy, (is_mx_rows _ _ _ _ Hl).
  apply (gives_upto0 (fun t v => is_vec v n (fapply t g (bit (data y))))); [| |auto].
  - eapply is_vec_ext; [apply is_vec_repeat|]. intros i Hi. reflexivity.
  - intros j v Hj Hv. eapply gives_bind with (P := fun b => b = coord (data y) j).
    { unfold bv_test, test. destruct (Nat.ltb_spec j dim); [|lia]. reflexivity. }
    intros b ->. unfold bit in *. destruct (coord (data y) j) eqn:Ej.
    + rewrite (proj1 Hv). apply (gives_upto0 (fun t v => is_vec v n (fun i => fapply j g (fun j => if coord (data y) j then 1 else 0) i + if (i <? t)%nat then g i j else 0))).
      * eapply is_vec_ext; [exact Hv|]. intros i Hi. cbn. lia.
      * intros i w Hi Hw. eapply bind_vget; [exact Hw|exact Hi|]. eapply bind_mget; [exact Hl|exact Hi|exact Hj|].
        apply bind_chk; [auto|]. apply (gives_vput_vec w n _ i _ _ Hw Hi). intros u Hu. eapply is_vec_ext; [exact Hu|].
        intros t Ht. unfold upd1. destruct (Nat.eqb_spec t i) as [Et|Et]; destruct (Nat.ltb_spec t (S i)); try (exfalso; lia).
        -- subst t. rewrite Nat.ltb_irrefl. lia.
        -- destruct (Nat.ltb_spec t i); [reflexivity|lia].
        -- destruct (Nat.ltb_spec t i); [lia|reflexivity].
      * intros w Hw. eapply is_vec_ext; [exact Hw|]. intros i Hi. cbn beta. destruct (Nat.ltb_spec i n); [|lia]. unfold fapply. rewrite RootAcc.zsum_S, Ej. ring.
    + cbn [gives]. eapply is_vec_ext; [exact Hv|]. intros i Hi. unfold fapply. rewrite RootAcc.zsum_S, Ej. ring.
Qed.
Lemma y_unlift_run v x : (k <= dim)%nat -> is_vec v n x -> 
  gives (y_unlift dim fits me v) (fun y => bsize y = k /\ exists t, (forall j, (j < k)%nat -> fapply n m x j = 2 * t j) /\ mod2 k t (data y))
    (fun e => e = Thrown /\ (exists j, (j < k)%nat /\ ~ (2 | fapply n m x j)) \/ E e).
Proof.
  intros Hk V. unfold y_unlift. eapply gives_bind; [eapply gives_mono_err; [|apply (apply_run _ k n m v x Hm V)]; auto|]. intros w Hw.
  eapply gives_bind; [eapply gives_mono_err; [|apply (vec_div_ok fits w k _ 2 Hw)]|].
  { intros e [(-> & [J|J])|J]; [lia| |right; exact J]. left. split; [reflexivity|exact J]. }
  intros u (_ & t & Hu & Ht). eapply gives_conv; [| |apply bv_mod2_ok; rewrite (proj1 Hu); exact Hk]; [|intros e []].
  intros z (S1 & Cz). rewrite (proj1 Hu) in S1, Cz. split; [apply S1|]. exists t. split; [exact Ht|]. split; [apply S1|]. intros i Hi. rewrite Cz by exact Hi. f_equal. apply VecProofs.get_nth_eq, (proj2 Hu i Hi).
Qed.
End Uniq.
