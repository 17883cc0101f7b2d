(** Reflections as matrices; permutations of the roots; data derived from others. *)

From Coq Require Import List Arith ZArith Bool Lia Permutation.
From Verif Require Import VecModel VecProofs RunModel RunProofs MatModel MatSpec MatProofs MatLin MatOps MatProps LatModel SizeModel LieTypeModel LieTypeSpec
  RootModel RootSpec RootBase RootMath RootForm RootFin RootCo RootAcc RootSys RootUniq RootBasis RootTop RootProps DatModel DatSpec DatMath DatProofs DatOps.
Import ListNotations.
Local Open Scope Z_scope.

Section Mats.
Variable fits : Z -> bool.
Notation R := (zarith fits).
Notation E := (overflows fits).
Section Two.
Variables (rk : nat) (a b : nat -> res Z) (x y : nat -> Z).
Hypothesis Ha : forall i, (i < rk)%nat -> a i = Ok (x i).
Hypothesis Hb : forall i, (i < rk)%nat -> b i = Ok (y i).
Lemma left_reflect_ok M m g : is_mx M rk m g -> gives (left_reflect fits rk a b M) (fun N => is_mx N rk m (fun i j => g i j - x i * zsum rk (fun k => y k * g k j))) E.
Proof.
  intros HM. unfold left_reflect. rewrite (proj1 (proj2 HM)). set (G := fun i j => g i j - x i * zsum rk (fun k => y k * g k j)).
  apply (gives_upto0 (fun j N => exists h, is_mx N rk m h /\ forall i k, (i < rk)%nat -> (k < m)%nat -> h i k = if (k <? j)%nat then G i k else g i k)).
  - exists g. split; [exact HM|]. intros i k _ _. reflexivity.
  - intros j N Hj (h & HN & Hh). eapply gives_bind.
    + apply (gives_upto0 (fun i c => c = zsum i (fun k => y k * g k j))); [reflexivity| |intros c Hc; exact Hc].
      intros i c Hi ->. rewrite (Hb i Hi). cbn [bind]. apply (bind_mget _ _ _ _ _ _ _ _ HN Hi Hj). rewrite (Hh i j Hi Hj), Nat.ltb_irrefl.
      eapply gives_bind; [apply chk_run|]. intros q <-. eapply gives_mono; [apply chk_run|]. intros z <-. reflexivity.
    + intros c ->. apply (gives_upto0 (fun i N => exists h, is_mx N rk m h /\ forall i' k, (i' < rk)%nat -> (k < m)%nat -> h i' k = if ((k <? j) || ((k =? j) && (i' <? i)))%nat then G i' k else g i' k)).
      * exists h. split; [exact HN|]. intros i' k Hi' Hk. rewrite (Hh i' k Hi' Hk). cbn [Nat.ltb Nat.leb]. rewrite andb_false_r, orb_false_r. reflexivity.
      * intros i N1 Hi (h1 & HN1 & Hh1). apply (bind_mget _ _ _ _ _ _ _ _ HN1 Hi Hj). rewrite (Ha i Hi). cbn [bind]. rewrite (Hh1 i j Hi Hj), !Nat.ltb_irrefl, andb_false_r. cbn [orb].
        eapply gives_bind; [apply chk_run|]. intros q <-. eapply gives_bind; [apply chk_run|]. intros z <-. apply (gives_mput _ _ _ _ _ _ _ _ HN1 Hi Hj). intros N2 HN2. eexists. split; [exact HN2|].
        intros i' k Hi' Hk. unfold upd. destruct (Nat.eqb_spec i' i) as [->|Ni]; cbn [andb]; destruct (Nat.eqb_spec k j) as [->|Nk]; cbn [andb].
        -- rewrite Nat.ltb_irrefl, (proj2 (Nat.ltb_lt i (S i))) by lia. reflexivity.
        -- rewrite (Hh1 i k Hi' Hk), (proj2 (Nat.eqb_neq k j) Nk). reflexivity.
        -- rewrite (Hh1 i' j Hi' Hk), Nat.eqb_refl. cbn [andb]. replace (i' <? S i)%nat with (i' <? i)%nat; [reflexivity|]. destruct (Nat.ltb_spec i' i), (Nat.ltb_spec i' (S i)); try reflexivity; lia.
        -- rewrite (Hh1 i' k Hi' Hk), (proj2 (Nat.eqb_neq k j) Nk). reflexivity.
      * intros N1 (h1 & HN1 & Hh1). exists h1. split; [exact HN1|]. intros i k Hi Hk. rewrite (Hh1 i k Hi Hk), (proj2 (Nat.ltb_lt i rk) Hi), andb_true_r. replace ((k <? j) || (k =? j))%nat with (k <? S j)%nat; [reflexivity|].
        destruct (Nat.ltb_spec k j), (Nat.eqb_spec k j), (Nat.ltb_spec k (S j)); try reflexivity; lia.
  - intros N (h & HN & Hh). eapply is_mx_ext; [exact HN|]. intros i k Hi Hk. rewrite (Hh i k Hi Hk), (proj2 (Nat.ltb_lt k m) Hk). reflexivity.
Qed.
Lemma right_reflect_ok M m g : is_mx M m rk g -> gives (right_reflect fits rk a b M) (fun N => is_mx N m rk (fun i j => g i j - zsum rk (fun k => g i k * x k) * y j)) E.
Proof.
  intros HM. unfold right_reflect. rewrite (proj1 HM). set (G := fun i j => g i j - zsum rk (fun k => g i k * x k) * y j).
  apply (gives_upto0 (fun i N => exists h, is_mx N m rk h /\ forall k j, (k < m)%nat -> (j < rk)%nat -> h k j = if (k <? i)%nat then G k j else g k j)).
  - exists g. split; [exact HM|]. intros i k _ _. reflexivity.
  - intros i N Hi (h & HN & Hh). eapply gives_bind.
    + apply (gives_upto0 (fun j c => c = zsum j (fun k => g i k * x k))); [reflexivity| |intros c Hc; exact Hc].
      intros j c Hj ->. apply (bind_mget _ _ _ _ _ _ _ _ HN Hi Hj). rewrite (Ha j Hj). cbn [bind]. rewrite (Hh i j Hi Hj), Nat.ltb_irrefl.
      eapply gives_bind; [apply chk_run|]. intros q <-. eapply gives_mono; [apply chk_run|]. intros z <-. reflexivity.
    + intros c ->. apply (gives_upto0 (fun j N => exists h, is_mx N m rk h /\ forall k j', (k < m)%nat -> (j' < rk)%nat -> h k j' = if ((k <? i) || ((k =? i) && (j' <? j)))%nat then G k j' else g k j')).
      * exists h. split; [exact HN|]. intros k j' Hk Hj'. rewrite (Hh k j' Hk Hj'). cbn [Nat.ltb Nat.leb]. rewrite andb_false_r, orb_false_r. reflexivity.
      * intros j N1 Hj (h1 & HN1 & Hh1). apply (bind_mget _ _ _ _ _ _ _ _ HN1 Hi Hj). rewrite (Hb j Hj). cbn [bind]. rewrite (Hh1 i j Hi Hj), !Nat.ltb_irrefl, andb_false_r. cbn [orb].
        eapply gives_bind; [apply chk_run|]. intros q <-. eapply gives_bind; [apply chk_run|]. intros z <-. apply (gives_mput _ _ _ _ _ _ _ _ HN1 Hi Hj). intros N2 HN2. eexists. split; [exact HN2|].
        intros k j' Hk Hj'. unfold upd. destruct (Nat.eqb_spec k i) as [->|Nk]; cbn [andb]; [destruct (Nat.eqb_spec j' j) as [->|Nj]|].
        -- rewrite Nat.ltb_irrefl, (proj2 (Nat.ltb_lt j (S j))) by lia. reflexivity.
        -- rewrite (Hh1 i j' Hk Hj'), Nat.eqb_refl. cbn [andb]. replace (j' <? S j)%nat with (j' <? j)%nat; [reflexivity|]. destruct (Nat.ltb_spec j' j), (Nat.ltb_spec j' (S j)); try reflexivity; lia.
        -- rewrite (Hh1 k j' Hk Hj'), (proj2 (Nat.eqb_neq k i) Nk). reflexivity.
      * intros N1 (h1 & HN1 & Hh1). exists h1. split; [exact HN1|]. intros k j' Hk Hj'. rewrite (Hh1 k j' Hk Hj'), (proj2 (Nat.ltb_lt j' rk) Hj'), andb_true_r. replace ((k <? i) || (k =? i))%nat with (k <? S i)%nat; [reflexivity|].
        destruct (Nat.ltb_spec k i), (Nat.eqb_spec k i), (Nat.ltb_spec k (S i)); try reflexivity; lia.
  - intros N (h & HN & Hh). eapply is_mx_ext; [exact HN|]. intros k j Hk Hj. rewrite (Hh k j Hk Hj), (proj2 (Nat.ltb_lt k m) Hk). reflexivity.
Qed.
End Two.

(** the matrix of a reflection *)
Lemma rmatrix_apply r a b v : length a = r -> length v = r -> comb r r (fcol r (rmatrix a b)) v = reflect_at r a b v.
Proof.
  intros L Lv. apply vec_ext; [rewrite ra_length, comb_length; reflexivity|]. intros k Hk. rewrite comb_length in Hk. rewrite co_comb by exact Hk. unfold reflect_at. rewrite co_away by assumption.
  rewrite (zsum_ext _ _ (fun i => (delta k i * co v i) + (- co a k) * (co v i * co b i))) by (intros i Hi; rewrite co_fcol by exact Hk; unfold rmatrix; lia).
  rewrite DatMath.zsum_add, zsum_mul_l. fold (dot r v b). pose proof (fmul_id_l r (fun i _ => co v i) k 0%nat Hk) as D. unfold fmul in D. rewrite D. lia.
Qed.
Lemma left_is_product r a b g i j : (i < r)%nat -> g i j - co a i * zsum r (fun k => co b k * g k j) = fmul r (rmatrix a b) g i j.
Proof.
  intros Hi. unfold fmul, rmatrix. rewrite (zsum_ext r (fun k => (delta i k - co a i * co b k) * g k j) (fun k => delta i k * g k j + (- co a i) * (co b k * g k j))) by (intros k Hk; lia).
  rewrite DatMath.zsum_add, zsum_mul_l. pose proof (fmul_id_l r g i j Hi) as D. unfold fmul in D. rewrite D. lia.
Qed.
Lemma right_is_product r a b g i j : (j < r)%nat -> g i j - zsum r (fun k => g i k * co a k) * co b j = fmul r g (rmatrix a b) i j.
Proof.
  intros Hj. unfold fmul, rmatrix. rewrite (zsum_ext r (fun k => g i k * (delta k j - co a k * co b j)) (fun k => g i k * delta k j + (- co b j) * (g i k * co a k))) by (intros k Hk; lia).
  rewrite DatMath.zsum_add, zsum_mul_l. pose proof (fmul_id_r r g i j Hj) as D. unfold fmul in D. rewrite D. lia.
Qed.
Lemma product_apply r g h v : length v = r -> comb r r (fcol r (fmul r g h)) v = comb r r (fcol r g) (comb r r (fcol r h) v).
Proof.
  intros L. apply vec_ext; [rewrite !comb_length; reflexivity|]. intros k Hk. rewrite comb_length in Hk. rewrite !co_comb by exact Hk.
  rewrite (zsum_ext _ _ (fun i => zsum r (fun j => co v i * g k j * h j i))).
  - rewrite RootForm.zsum_swap. apply zsum_ext. intros j Hj. rewrite co_comb, co_fcol by assumption. rewrite (Z.mul_comm _ (g k j)), <- zsum_mul_l. apply zsum_ext. intros i Hi. rewrite co_fcol by exact Hj. lia.
  - intros i Hi. rewrite co_fcol by exact Hk. unfold fmul. rewrite <- zsum_mul_l. apply zsum_ext. intros; lia.
Qed.

Section Pre.
Variables (r n : nat) (A B : nat -> nat -> Z) (p : predatum).
Hypothesis HA : is_mx (p_roots p) r n A.
Hypothesis HB : is_mx (p_coroots p) r n B.
Notation al := (fcol r A).
Notation be := (fcol r B).
Lemma p_reflect_run i v : (i < n)%nat -> length v = r -> gives (p_reflect fits p i v) (eq (reflect_at r (al i) (be i) v)) E.
Proof.
  intros Hi L. unfold p_reflect, p_root, p_coroot. rewrite (column_run _ _ _ _ i HA Hi), (column_run _ _ _ _ i HB Hi). cbn [bind]. eapply gives_bind; [apply (dot_run fits r); [apply fcol_length|exact L]|]. intros c <-. rewrite dot_comm. apply submul_run; [exact L|apply fcol_length].
Qed.
Lemma mget_run M m k (f : nat -> nat -> Z) i j : is_mx M m k f -> (i < m)%nat -> (j < k)%nat -> mget M i j = Ok (f i j).
Proof. intros H Hi Hj. unfold mget. rewrite (proj1 (proj2 H)). apply vget_ok. apply H; assumption. Qed.
Lemma p_left_run i M m g : (i < n)%nat -> is_mx M r m g -> gives (p_reflect_left fits p i M) (fun N => is_mx N r m (fmul r (rmatrix (al i) (be i)) g)) E.
Proof.
  intros Hi HM. unfold p_reflect_left, p_rank. rewrite (proj1 HA). eapply gives_mono; [apply (left_reflect_ok r _ _ (co (al i)) (co (be i))) with (2 := fun k Hk => eq_trans (mget_run _ _ _ _ k i HB Hk Hi) (f_equal Ok (eq_sym (co_fcol r B i k Hk)))) (3 := HM)|].
  - intros k Hk. rewrite (mget_run _ _ _ _ k i HA Hk Hi), co_fcol by exact Hk. reflexivity.
  - intros N HN. eapply is_mx_ext; [exact HN|]. intros a b Ha Hb. apply left_is_product; exact Ha.
Qed.
Lemma p_right_run i M m g : (i < n)%nat -> is_mx M m r g -> gives (p_reflect_right fits p M i) (fun N => is_mx N m r (fmul r g (rmatrix (al i) (be i)))) E.
Proof.
  intros Hi HM. unfold p_reflect_right, p_rank. rewrite (proj1 HA). eapply gives_mono; [apply (right_reflect_ok r _ _ (co (al i)) (co (be i))) with (2 := fun k Hk => eq_trans (mget_run _ _ _ _ k i HB Hk Hi) (f_equal Ok (eq_sym (co_fcol r B i k Hk)))) (3 := HM)|].
  - intros k Hk. rewrite (mget_run _ _ _ _ k i HA Hk Hi), co_fcol by exact Hk. reflexivity.
  - intros N HN. eapply is_mx_ext; [exact HN|]. intros a b Ha Hb. apply right_is_product; exact Hb.
Qed.
End Pre.

Section Dat.
Variables (r n : nat) (A B : nat -> nat -> Z) (p : predatum) (d : datum).
Notation al := (fcol r A).
Notation be := (fcol r B).
Notation C := (fun i j => dot r (al i) (be j)).
Hypothesis K : datum_ok r n A B p d.
Notation s := (d_sys d).
Notation emb := (comb r n al).
Notation coemb := (comb r n be).
Notation letters := (Forall (fun i => (i < n)%nat)).
Notation rt a := (emb (root_at s a)).
Notation crt a := (coemb (coroot_at s a)).
Lemma coord_run a i : (a < num_roots s)%nat -> (i < r)%nat -> (run x <- d_root d a; vget x i) = Ok (co (rt a) i) /\ (run x <- d_coroot d a; vget x i) = Ok (co (crt a) i).
Proof.
  intros Ha Hi. destruct (d_root_run r n A B p d K a Ha) as [-> ->]. cbn [bind]. split; apply vget_ok; apply get_co; rewrite comb_length; exact Hi.
Qed.
Lemma d_left_run a M m g : (a < num_roots s)%nat -> is_mx M r m g -> gives (d_reflect_left fits d a M) (fun N => is_mx N r m (fmul r (rmatrix (rt a) (crt a)) g)) E.
Proof.
  intros Ha HM. unfold d_reflect_left. rewrite (k_rank _ _ _ _ _ _ K). eapply gives_mono; [apply (left_reflect_ok r _ _ (co (rt a)) (co (crt a)) (fun k Hk => proj1 (coord_run a k Ha Hk)) (fun k Hk => proj2 (coord_run a k Ha Hk)) M m g HM)|].
  intros N HN. eapply is_mx_ext; [exact HN|]. intros i j Hi Hj. apply left_is_product; exact Hi.
Qed.
Lemma d_right_run a M m g : (a < num_roots s)%nat -> is_mx M m r g -> gives (d_reflect_right fits d M a) (fun N => is_mx N m r (fmul r g (rmatrix (rt a) (crt a)))) E.
Proof.
  intros Ha HM. unfold d_reflect_right. rewrite (k_rank _ _ _ _ _ _ K). eapply gives_mono; [apply (right_reflect_ok r _ _ (co (rt a)) (co (crt a)) (fun k Hk => proj1 (coord_run a k Ha Hk)) (fun k Hk => proj2 (coord_run a k Ha Hk)) M m g HM)|].
  intros N HN. eapply is_mx_ext; [exact HN|]. intros i j Hi Hj. apply right_is_product; exact Hj.
Qed.
Lemma id_run m : gives (mat_id R m) (fun M => is_mx M m m delta) E.
Proof. eapply gives_mono; [apply (C58_identity R _ _ _ _ (C58_integers fits) m)|]. intros M H. exact H. Qed.
Lemma root_reflection_run a : (a < num_roots s)%nat -> gives (root_reflection fits d a) (fun M => is_mx M r r (rmatrix (rt a) (crt a))) E.
Proof.
  intros Ha. unfold root_reflection. rewrite (k_rank _ _ _ _ _ _ K). eapply gives_bind; [apply id_run|]. intros I HI. destruct (d_root_run r n A B p d K a Ha) as [-> ->]. cbn [bind].
  set (G := rmatrix (rt a) (crt a)).
  apply (gives_upto0 (fun i N => exists h, is_mx N r r h /\ forall k j, (k < r)%nat -> (j < r)%nat -> h k j = if (k <? i)%nat then G k j else delta k j)).
  - exists delta. split; [exact HI|]. intros k j _ _. reflexivity.
  - intros i N Hi (h & HN & Hh). apply (gives_upto0 (fun j N => exists h, is_mx N r r h /\ forall k j', (k < r)%nat -> (j' < r)%nat -> h k j' = if ((k <? i) || ((k =? i) && (j' <? j)))%nat then G k j' else delta k j')).
    + exists h. split; [exact HN|]. intros k j' Hk Hj'. rewrite (Hh k j' Hk Hj'). cbn [Nat.ltb Nat.leb]. rewrite andb_false_r, orb_false_r. reflexivity.
    + intros j N1 Hj (h1 & HN1 & Hh1). apply (bind_mget _ _ _ _ _ _ _ _ HN1 Hi Hj). rewrite (vget_ok _ _ _ (get_co (rt a) i ltac:(rewrite comb_length; lia))), (vget_ok _ _ _ (get_co (crt a) j ltac:(rewrite comb_length; lia))). cbn [bind].
      rewrite (Hh1 i j Hi Hj), !Nat.ltb_irrefl, andb_false_r. cbn [orb].
      eapply gives_bind; [apply chk_run|]. intros q <-. eapply gives_bind; [apply chk_run|]. intros z <-. apply (gives_mput _ _ _ _ _ _ _ _ HN1 Hi Hj). intros N2 HN2. eexists. split; [exact HN2|].
      intros k j' Hk Hj'. unfold upd. destruct (Nat.eqb_spec k i) as [->|Nk]; cbn [andb]; [destruct (Nat.eqb_spec j' j) as [->|Nj]|].
      * rewrite Nat.ltb_irrefl, (proj2 (Nat.ltb_lt j (S j))) by lia. reflexivity.
      * rewrite (Hh1 i j' Hk Hj'), Nat.eqb_refl. cbn [andb]. replace (j' <? S j)%nat with (j' <? j)%nat; [reflexivity|]. destruct (Nat.ltb_spec j' j), (Nat.ltb_spec j' (S j)); try reflexivity; lia.
      * rewrite (Hh1 k j' Hk Hj'), (proj2 (Nat.eqb_neq k i) Nk). reflexivity.
    + intros N1 (h1 & HN1 & Hh1). exists h1. split; [exact HN1|]. intros k j' Hk Hj'. rewrite (Hh1 k j' Hk Hj'), (proj2 (Nat.ltb_lt j' r) Hj'), andb_true_r. replace ((k <? i) || (k =? i))%nat with (k <? S i)%nat; [reflexivity|].
      destruct (Nat.ltb_spec k i), (Nat.eqb_spec k i), (Nat.ltb_spec k (S i)); try reflexivity; lia.
  - intros N (h & HN & Hh). eapply is_mx_ext; [exact HN|]. intros k j Hk Hj. rewrite (Hh k j Hk Hj), (proj2 (Nat.ltb_lt k r) Hk). reflexivity.
Qed.
Lemma action_matrix_run ww : letters ww -> gives (action_matrix fits d ww) (fun M => exists g, is_mx M r r g /\ forall v, length v = r -> comb r r (fcol r g) v = act_by r al be ww v) E.
Proof.
  intros F. unfold action_matrix. rewrite (k_rank _ _ _ _ _ _ K). eapply gives_bind; [apply id_run|]. intros I HI.
  apply (gives_upto0 (fun k M => exists g, is_mx M r r g /\ forall v, length v = r -> comb r r (fcol r g) v = act_by r al be (firstn k ww) v)).
  - exists delta. split; [exact HI|]. intros v L. cbn. apply vec_ext; [rewrite comb_length; lia|]. intros k Hk. rewrite comb_length in Hk. rewrite co_comb by exact Hk.
    rewrite (zsum_ext _ _ (fun i => delta k i * co v i)) by (intros i Hi; rewrite co_fcol by exact Hk; lia). pose proof (fmul_id_l r (fun i _ => co v i) k 0%nat Hk) as D. exact D.
  - intros k M Hk (g & HM & Hg). destruct (letter n ww k F Hk) as (i & G & Hi). rewrite (vget_ok _ _ _ G). cbn [bind]. destruct (k_simple r n A B p d K i Hi) as (Q & E1 & E2).
    eapply gives_bind; [apply (root_reflection_run _ Q)|]. intros N HN. rewrite E1, E2, !comb_basis in HN by (auto using fcol_length).
    eapply gives_mono; [apply (C58_products R _ _ _ _ (C58_integers fits) M N r r r _ _ HM HN)|]. intros M' HM'. exists (fmul r g (rmatrix (al i) (be i))). split; [exact HM'|].
    intros v L. rewrite product_apply, rmatrix_apply by (auto using fcol_length). rewrite Hg by apply ra_length. rewrite (firstn_get ww k i G). unfold act_by. rewrite fold_right_app. reflexivity.
  - intros M H. rewrite firstn_all in H. exact H.
Qed.
End Dat.
End Mats.
