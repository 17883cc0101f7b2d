(** C124-C129: involutions, integrality of weights, sums of roots and folding, rootdata.cpp. *)

From Coq Require Import List Arith ZArith QArith Bool Lia Sorted Permutation.
From Verif Require Import VecModel VecProofs RunModel RunProofs MatModel MatSpec MatLin MatRing MatProofs LatModel BitsModel ArithModel ArithSpec ArithProps RatVecModel RatVecSpec RatVecProps
  LieTypeModel LieTypeSpec RootModel RootSpec RootForm RootFin RootBasis RootAcc RootSys RootMath RootUniq RootTop RootProps RsfBase RsfProps DatModel DatSpec DatMath DatProofs DatOps DatFactor DatMats DatPre DatProps DatProps2
  DfModel DfSpec DfMath DfInv DfSums DfInt DfPts DfFold.
Import ListNotations.
Local Open Scope Z_scope.

(** the vectors of root and coroot number [a] (as in C104_constructor) *)
Notation root_of r n A d a := (comb r n (fcol r A) (root_at (d_sys d) a)).
Notation coroot_of r n B d a := (comb r n (fcol r B) (coroot_at (d_sys d) a)).

(** GL(m), with the involution that reverses the coordinates and changes their signs *)
Definition gl_pre (m : nat) : predatum :=
  let f := mk_mat m (m - 1) (flat_map (fun i => map (fun j => if (i =? j)%nat then 1 else if (i =? S j)%nat then -1 else 0) (seq 0 (m - 1))) (seq 0 m)) in mk_pre f f false.
Definition gl_rev (m : nat) : matrix Z := mk_mat m m (flat_map (fun i => map (fun j => if (i + j =? m - 1)%nat then -1 else 0) (seq 0 m)) (seq 0 m)).
Definition lA (m : nat) : nat -> nat -> Z := ent (m - 1) (mdata (p_roots (gl_pre m))).
Definition GL4 : datum := Eval vm_compute in the (root_datum i32 (gl_pre 4)).
Definition GL3 : datum := Eval vm_compute in the (root_datum i32 (gl_pre 3)).
Ltac cases i n := lazymatch n with O => exfalso; lia | S ?m => destruct i as [|i]; [|cases i m] end.
Ltac is_matrix a b := split; [reflexivity|]; split; [reflexivity|]; split; [reflexivity|]; let i := fresh in let j := fresh in intros i j ? ?; cases i a; cases j b; reflexivity.
Lemma datum_gl4 : datum_of i32 4 3 (lA 4) (lA 4) (gl_pre 4) GL4.
Proof.
  assert (H : is_mx (mk_mat 3 3 [2; -1; 0; -1; 2; -1; 0; -1; 2]) 3 3 (pairings 4 (lA 4) (lA 4))) by is_matrix 3%nat 3%nat.
  split; [|vm_compute; reflexivity]. split; [is_matrix 4%nat 3%nat|]. split; [is_matrix 4%nat 3%nat|]. split; [lia|]. eapply type_finite; [lia|exact H|vm_compute; reflexivity].
Qed.
Lemma datum_gl3 : datum_of i32 3 2 (lA 3) (lA 3) (gl_pre 3) GL3.
Proof.
  assert (H : is_mx (mk_mat 2 2 [2; -1; -1; 2]) 2 2 (pairings 3 (lA 3) (lA 3))) by is_matrix 2%nat 2%nat.
  split; [|vm_compute; reflexivity]. split; [is_matrix 3%nat 2%nat|]. split; [is_matrix 3%nat 2%nat|]. split; [lia|]. eapply type_finite; [lia|exact H|vm_compute; reflexivity].
Qed.
Lemma gl4_mx : is_mx (gl_rev 4) 4 4 (ent 4 (mdata (gl_rev 4))). Proof. is_matrix 4%nat 4%nat. Qed.
Lemma gl3_mx : is_mx (gl_rev 3) 3 3 (ent 3 (mdata (gl_rev 3))). Proof. is_matrix 3%nat 3%nat. Qed.
Ltac list_of v n := lazymatch n with O => destruct v as [|? ?]; [|discriminate] | S ?m => destruct v as [|? v]; [discriminate|]; list_of v m end.
Lemma gl4_permutes : permutes_simple 4 3 (lA 4) (lA 4) (ent 4 (mdata (gl_rev 4))) (fun i => 2 - i)%nat.
Proof.
  intros i Hi. cases i 3%nat; (split; [lia|]; split; [vm_compute; reflexivity|]; intros v Lv; list_of v 4%nat; cbn -[Z.mul Z.add]; ring).
Qed.
Lemma gl3_permutes : permutes_simple 3 2 (lA 3) (lA 3) (ent 3 (mdata (gl_rev 3))) (fun i => 1 - i)%nat.
Proof.
  intros i Hi. cases i 2%nat; (split; [lia|]; split; [vm_compute; reflexivity|]; intros v Lv; list_of v 3%nat; cbn -[Z.mul Z.add]; ring).
Qed.
Lemma gl4_inv : involutive 4 (ent 4 (mdata (gl_rev 4))).
Proof. intros v Lv. list_of v 4%nat. cbn -[Z.mul Z.add]. do 3 (f_equal; [ring|]). f_equal. ring. Qed.
Lemma gl3_inv : involutive 3 (ent 3 (mdata (gl_rev 3))).
Proof. intros v Lv. list_of v 3%nat. cbn -[Z.mul Z.add]. do 2 (f_equal; [ring|]). f_equal. ring. Qed.

(** * C124: distinguished involutions and their duals *)
(** an automorphism followed by the Weyl group element that makes it permute the simple roots; that element is unique,
    since its product with the automorphism permutes the simple roots (C109_rho).  Involutions give involutions *)
Theorem C124_distinguished (fits : Z -> bool) (r n : nat) (A B : nat -> nat -> Z) (p : predatum) (d : datum) (q : matrix Z) (g : nat -> nat -> Z) : datum_of fits r n A B p d ->
  is_mx q r r g -> automorphism r n A B g ->
  gives (toDistinguished fits q d) (fun M => exists h ww pi, is_mx M r r h /\ word n ww /\
    (forall v, length v = r -> image_by r h v = act_by r (fcol r A) (fcol r B) ww (image_by r g v)) /\
    permutes_simple r n A B h pi /\ (involutive r g -> involutive r h)) (overflows fits).
Proof. intros K. apply datum_of_ok in K. exact (toDistinguished_run fits r n A B p d K q g). Qed.
(** for an involution that permutes the simple roots, the dual one is the negative transpose of its product with the
    longest element: again an involution, and it permutes the simple coroots *)
Theorem C124_dual (fits : Z -> bool) (r n : nat) (A B : nat -> nat -> Z) (p : predatum) (d : datum) (q : matrix Z) (g : nat -> nat -> Z) (pi0 : nat -> nat) : datum_of fits r n A B p d ->
  is_mx q r r g -> permutes_simple r n A B g pi0 -> involutive r g ->
  gives (dualBasedInvolution fits q d) (fun M => exists h ww pi, is_mx M r r h /\ word n ww /\
    dominant r n (fcol r B) (act_by r (fcol r A) (fcol r B) ww (opp (d_2rho d))) /\
    (forall v y, length v = r -> length y = r -> dot r v (image_by r h y) = - dot r (image_by r g (act_by r (fcol r A) (fcol r B) ww v)) y) /\
    permutes_simple r n B A h pi /\ involutive r h) (overflows fits).
Proof. intros K. apply datum_of_ok in K. exact (dualBased_run fits r n A B p d K q g pi0). Qed.
Definition minus3 : matrix Z := mk_mat 3 3 [-1; 0; 0; 0; -1; 0; 0; 0; -1].
Lemma minus3_mx : is_mx minus3 3 3 (ent 3 (mdata minus3)). Proof. is_matrix 3%nat 3%nat. Qed.
Lemma minus3_auto : automorphism 3 2 (lA 3) (lA 3) (ent 3 (mdata minus3)).
Proof.
  intros i Hi. exists (opp (basis 2 i)), (opp (basis 2 i)).
  split; [apply rc_opp; [|apply rc_simple; exact Hi]; exact (proj1 (proj1 (k_good _ _ _ _ _ _ (datum_of_ok _ _ _ _ _ _ _ datum_gl3))))|].
  cases i 2%nat; (split; [vm_compute; reflexivity|]; intros v Lv; list_of v 3%nat; cbn -[Z.mul Z.add]; ring).
Qed.
Example C124_ex : datum_of i32 3 2 (lA 3) (lA 3) (gl_pre 3) GL3 /\ is_mx minus3 3 3 (ent 3 (mdata minus3)) /\ automorphism 3 2 (lA 3) (lA 3) (ent 3 (mdata minus3)) /\
  toDistinguished i32 minus3 GL3 = Ok (gl_rev 3) /\
  is_mx (gl_rev 3) 3 3 (ent 3 (mdata (gl_rev 3))) /\ permutes_simple 3 2 (lA 3) (lA 3) (ent 3 (mdata (gl_rev 3))) (fun i => 1 - i)%nat /\ involutive 3 (ent 3 (mdata (gl_rev 3))) /\
  dualBasedInvolution i32 (gl_rev 3) GL3 = Ok (mk_mat 3 3 [1; 0; 0; 0; 1; 0; 0; 0; 1]) /\
  dualBasedInvolution i32 (mk_mat 3 3 [1; 0; 0; 0; 1; 0; 0; 0; 1]) GL3 = Ok (gl_rev 3).
Proof.
  split; [exact datum_gl3|]. split; [exact minus3_mx|]. split; [exact minus3_auto|]. split; [vm_compute; reflexivity|]. split; [exact gl3_mx|]. split; [exact gl3_permutes|]. split; [exact gl3_inv|]. split; vm_compute; reflexivity.
Qed.

(** * C125: half sums of positive roots, and sums of roots *)
(** the half sums, in lowest terms *)
Theorem C125_rho (fits : Z -> bool) (r n : nat) (A B : nat -> nat -> Z) (p : predatum) (d : datum) : datum_of fits r n A B p d ->
  (forall x, In x (d_2rho d) -> i32 x = true) -> (forall x, In x (d_dual_2rho d) -> i32 x = true) ->
  (exists v, rho d = Ok v /\ is_rv v r (fun k => inject_Z (co (d_2rho d) k) / 2)%Q /\ reduced v) /\
  (exists v, rho_check d = Ok v /\ is_rv v r (fun k => inject_Z (co (d_dual_2rho d) k) / 2)%Q /\ reduced v).
Proof.
  intros K H1 H2. apply datum_of_ok in K. destruct (rho_ok r n A B p d K) as (L1 & L2 & _).
  assert (X : forall l, length l = r -> (forall x, In x l -> i32 x = true) -> exists v, (run w <- rv_make l 2; rv_normalize w) = Ok v /\ is_rv v r (fun k => inject_Z (co l k) / 2)%Q /\ reduced v).
  { intros l Ll Hl. assert (In32 : forall x, In x l -> - 2 ^ 31 <= x < 2 ^ 31) by (intros x I; specialize (Hl x I); unfold i32 in Hl; lia).
    pose proof (C83_make l r (co l) 2 (vec_self l r Ll)) as M. destruct (rv_make l 2) as [w|e] eqn:Ew.
    - cbn [gives] in M. destruct M as [M _]; [|lia|lia|].
      { intros k Hk. assert (I : In (co l k) l) by (apply nth_In; lia). apply In32 in I. unfold in64. lia. }
      pose proof (C83_normalize w r _ M) as N. cbn [bind]. destruct (rv_normalize w) as [v|e]; [exists v; split; [reflexivity|]; split; apply N|].
      exfalso. destruct N as (_ & N). destruct M as (_ & x & (Lx & Hx) & Hq).
      assert (Ed : den w = 2 /\ num w = l) by (revert Ew; unfold rv_make; cbn -[Z.opp]; intros Ew; inversion Ew; auto).
      destruct Ed as [_ En]. rewrite En in N. apply In32 in N. lia.
    - exfalso. cbn [gives] in M. destruct M as (_ & M & _); [|lia|lia|lia]. intros k Hk. assert (I : In (co l k) l) by (apply nth_In; lia). apply In32 in I. unfold in64. lia. }
  split; apply X; assumption.
Qed.
(** rho - w(rho) and its dual, computed with integers *)
Theorem C125_moved (fits : Z -> bool) (r n : nat) (A B : nat -> nat -> Z) (p : predatum) (d : datum) (ww : list nat) : datum_of fits r n A B p d -> word n ww ->
  gives (rho_minus_w_rho fits d ww) (fun x => length x = r /\ forall k, (k < r)%nat -> 2 * co x k = co (d_2rho d) k - co (act_by r (fcol r A) (fcol r B) ww (d_2rho d)) k) (overflows fits) /\
  gives (rho_check_minus_rho_check_w fits d ww) (fun x => length x = r /\ forall k, (k < r)%nat -> 2 * co x k = co (d_dual_2rho d) k - co (act_by r (fcol r B) (fcol r A) (rev ww) (d_dual_2rho d)) k) (overflows fits).
Proof. intros K L. apply datum_of_ok in K. split; [exact (rho_minus_run fits r n A B p d K ww L)|exact (rho_check_minus_run fits r n A B p d K ww L)]. Qed.
(** sums over a set of roots *)
Theorem C125_sums (fits : Z -> bool) (r n : nat) (A B : nat -> nat -> Z) (p : predatum) (d : datum) (S : bset) : datum_of fits r n A B p d -> length S = num_roots (d_sys d) ->
  gives (root_sum fits d S) (eq (vsum r (map (fun a => root_of r n A d a) (filter (bmem S) (seq 0 (num_roots (d_sys d))))))) (overflows fits) /\
  gives (coroot_sum fits d S) (eq (vsum r (map (fun a => coroot_of r n B d a) (filter (bmem S) (seq 0 (num_roots (d_sys d))))))) (overflows fits).
Proof. intros K L. apply datum_of_ok in K. rewrite <- L. exact (root_sum_run fits r n A B p d K S L). Qed.
Example C125_ex : datum_of i32 3 2 gA gB gsp D /\ rho D = Ok (mk_rv [4; 2; -3] 2) /\ rho_check D = Ok (mk_rv [3; 1; 0] 2) /\ rho GL3 = Ok (mk_rv [1; 0; -1] 1) /\
  word 2 [0; 1]%nat /\ rho_minus_w_rho i32 D [0; 1]%nat = Ok [3; -1; -1] /\ rho_check_minus_rho_check_w i32 D [0; 1]%nat = Ok [1; 2; 0] /\
  length long_set = num_roots (d_sys D) /\ root_sum i32 D [false; false; false; false; true; false; true; true] = Ok [4; 0; -2] /\ coroot_sum i32 D [false; false; false; false; true; false; true; true] = Ok [3; 0; 0].
Proof. split; [apply datum_gsp|]. split; [vm_compute; reflexivity|]. split; [vm_compute; reflexivity|]. split; [vm_compute; reflexivity|]. split; [repeat constructor|]. vm_compute. auto 10. Qed.

(** * C126: products of reflections *)
(** the product of the reflections for the roots in a set, the last one acting first *)
Theorem C126_product (fits : Z -> bool) (r n : nat) (A B : nat -> nat -> Z) (p : predatum) (d : datum) (S : bset) : datum_of fits r n A B p d -> length S = num_roots (d_sys d) ->
  gives (refl_prod fits S d) (fun M => exists g, is_mx M r r g /\ forall v, length v = r ->
    image_by r g v = fold_right (fun a => reflect_at r (root_of r n A d a) (coroot_of r n B d a)) v (filter (bmem S) (seq 0 (num_roots (d_sys d))))) (overflows fits).
Proof. intros K L. apply datum_of_ok in K. rewrite <- L. exact (refl_prod_run fits r n A B p d K S L). Qed.
(** for orthogonal roots it subtracts from [v] the multiples of all these roots by the values of their coroots on [v] *)
Theorem C126_orthogonal (fits : Z -> bool) (r n : nat) (A B : nat -> nat -> Z) (p : predatum) (d : datum) (S : bset) : datum_of fits r n A B p d -> length S = num_roots (d_sys d) ->
  (forall a b, bmem S a = true -> bmem S b = true -> a <> b -> dot r (root_of r n A d a) (coroot_of r n B d b) = 0) ->
  gives (refl_prod fits S d) (fun M => exists g, is_mx M r r g /\ forall v k, length v = r -> (k < r)%nat ->
    co (image_by r g v) k = co v k - fold_right Z.add 0 (map (fun a => dot r v (coroot_of r n B d a) * co (root_of r n A d a) k) (filter (bmem S) (seq 0 (num_roots (d_sys d)))))) (overflows fits).
Proof.
  intros K0 L O. pose proof (datum_of_ok _ _ _ _ _ _ _ K0) as K. eapply gives_mono; [apply (C126_product fits r n A B p d S K0 L)|]. intros M (g & HM & Hg). exists g. split; [exact HM|]. intros v k Hv Hk. rewrite (Hg v Hv).
  apply (orthogonal_reflections r n A B d); [exact Hv| | | |exact Hk].
  - intros a Ha. apply filter_In in Ha. destruct Ha as [Ha _]. apply in_seq in Ha. lia.
  - apply NoDup_filter, seq_NoDup.
  - intros a b Ha Hb Ne. apply filter_In in Ha, Hb. rewrite <- (dot_emb_coemb r n (fcol r A) (fcol r B)) by reflexivity. apply O; tauto.
Qed.
Example C126_ex : datum_of i32 3 2 gA gB gsp D /\ length long_set = num_roots (d_sys D) /\
  (forall a b, bmem [false; false; false; false; false; true; false; true] a = true -> bmem [false; false; false; false; false; true; false; true] b = true -> a <> b -> dot 3 (root_of 3 2 gA D a) (coroot_of 3 2 gB D b) = 0) /\
  refl_prod i32 [false; false; false; false; false; true; false; true] D = Ok (mk_mat 3 3 [-1; 0; 0; 0; -1; 0; 1; 1; 1]) /\
  refl_prod i32 [false; false; false; false; true; true; false; false] D = Ok (mk_mat 3 3 [0; -1; 0; 1; 0; 0; 0; 1; 1]).
Proof.
  split; [apply datum_gsp|]. split; [reflexivity|]. split; [|vm_compute; auto]. intros a b Ha Hb. do 8 (destruct a as [|a]; [try discriminate Ha; do 8 (destruct b as [|b]; [try discriminate Hb; vm_compute; congruence|]); destruct b; discriminate Hb|]). destruct a; discriminate Ha.
Qed.

(** * C127: integrality of a rational weight v/m *)
(** the positive coroots with integral value *)
Theorem C127_coroots (fits : Z -> bool) (r n : nat) (A B : nat -> nat -> Z) (p : predatum) (d : datum) (v : list Z) (m : Z) : datum_of fits r n A B p d -> length v = r -> 0 < m ->
  gives (integrality_poscoroots fits d v m) (fun ps => length ps = num_pos (d_sys d) /\
    forall i, (i < num_pos (d_sys d))%nat -> (bmem ps i = true <-> (m | dot r v (coroot_of r n B d (num_pos (d_sys d) + i))))) (overflows fits).
Proof. intros K L P. apply datum_of_ok in K. exact (poscoroots_run fits r n A B p d K v m L P). Qed.
(** the simple roots of the system of roots whose coroots have integral value: those that are not sums of two positive
    roots of it.  They generate the positive roots of the system, and have pairings <= 0 *)
Theorem C127_simples (fits : Z -> bool) (r n : nat) (A B : nat -> nat -> Z) (p : predatum) (d : datum) (v : list Z) (m : Z) : datum_of fits r n A B p d -> length v = r -> 0 < m ->
  let integral a := (num_pos (d_sys d) <= a < num_roots (d_sys d))%nat /\ (m | dot r v (coroot_of r n B d a)) in
  gives (integrality_simples fits d v m) (fun l => StronglySorted lt l /\
    (forall a, In a l <-> integral a /\ ~ exists b c, integral b /\ integral c /\ root_at (d_sys d) a = plus n (root_at (d_sys d) b) (root_at (d_sys d) c)) /\
    (forall a, integral a -> exists ms, incl ms l /\ root_at (d_sys d) a = vsum n (map (root_at (d_sys d)) ms)) /\
    (forall a b, In a l -> In b l -> a <> b -> dot r (root_of r n A d a) (coroot_of r n B d b) <= 0)) (overflows fits).
Proof.
  intros K L P integral. apply datum_of_ok in K. eapply gives_mono; [exact (simples_spec fits r n A B p d K v m L P)|]. intros l (S1 & S2 & S3 & S4). split; [exact S1|]. split; [|split].
  - intros a. rewrite S2. unfold integral. split.
    + intros (H1 & H2 & H3). split; [split; assumption|]. intros (b & c & (B1 & B2) & (C1 & C2) & Q). apply H3. exists b, c. auto.
    + intros ((H1 & H2) & H3). split; [exact H1|]. split; [exact H2|]. intros (b & c & B1 & B2 & C1 & C2 & Q). apply H3. exists b, c. auto.
  - intros a (H1 & H2). apply S3; assumption.
  - intros a b Ha Hb N. rewrite (dot_emb_coemb r n (fcol r A) (fcol r B) (fun i j => dot r (fcol r A i) (fcol r B j))) by reflexivity. apply S4; assumption.
Qed.
(** the integral datum has the simple roots and coroots listed by integrality_simples *)
Theorem C127_predatum (fits : Z -> bool) (r n : nat) (A B : nat -> nat -> Z) (p : predatum) (d : datum) (v : list Z) (m : Z) : datum_of fits r n A B p d -> length v = r -> 0 < m ->
  gives (integrality_predatum fits d v m) (fun q => exists l, integrality_simples fits d v m = Ok l /\ p_prefer q = p_prefer p /\
    is_mx (p_roots q) r (length l) (fun i j => co (root_of r n A d (nth j l 0%nat)) i) /\ is_mx (p_coroots q) r (length l) (fun i j => co (coroot_of r n B d (nth j l 0%nat)) i)) (overflows fits).
Proof.
  intros K0 L P. pose proof (datum_of_ok _ _ _ _ _ _ _ K0) as K. unfold integrality_predatum. pose proof (C127_simples fits r n A B p d v m K0 L P) as G.
  destruct (integrality_simples fits d v m) as [l|e]; [|exact G]. cbn [bind]. destruct G as (_ & G & _).
  assert (Fl : Forall (fun a => (a < num_roots (d_sys d))%nat) l) by (apply Forall_forall; intros a Ha; apply G in Ha; destruct Ha as ((Ha & _) & _); lia).
  destruct (sub_run r n A B p d K l Fl) as (q & Eq & Q). rewrite Eq. cbn. exists l. split; [reflexivity|exact Q].
Qed.
(** simple coroots vanishing on a weight; dominance *)
Theorem C127_simple (fits : Z -> bool) (r n : nat) (A B : nat -> nat -> Z) (p : predatum) (d : datum) (v : list Z) : datum_of fits r n A B p d -> length v = r ->
  gives (singular_generators fits d v) (fun ps => length ps = n /\ forall i, (i < n)%nat -> (bmem ps i = true <-> dot r v (fcol r B i) = 0)) (overflows fits) /\
  gives (is_dominant_ratweight fits d v) (fun t => t = true <-> dominant r n (fcol r B) v) (overflows fits).
Proof. intros K L. apply datum_of_ok in K. split; [exact (singular_run fits r n A B p d K v L)|exact (dominant_run fits r n A B p d K v L)]. Qed.
Example C127_ex : datum_of i64 3 2 gA gB gsp D /\ integrality_poscoroots i64 D [1; 1; 0] 2 = Ok [true; false; true; false] /\ integrality_simples i64 D [1; 1; 0] 2 = Ok [4; 6]%nat /\
  integrality_predatum i64 D [1; 1; 0] 2 = Ok (mk_pre (mk_mat 3 2 [1; 1; -1; 1; 0; -1]) (mk_mat 3 2 [1; 1; -1; 1; 0; 0]) false) /\
  singular_generators i64 D [1; 1; 0] = Ok [true; false] /\ is_dominant_ratweight i64 D [1; 1; 0] = Ok true /\ is_dominant_ratweight i64 D [1; 2; 0] = Ok false.
Proof. split; [apply datum_gsp|]. vm_compute. auto 10. Qed.

(** * C128: the points t with 0 < t <= 1 where t v/m is integral on some more coroot *)
Theorem C128_points (fits : Z -> bool) (r n : nat) (A B : nat -> nat -> Z) (p : predatum) (d : datum) (v : list Z) (m : Z) : datum_of fits r n A B p d -> length v = r -> 0 < m ->
  gives (integrality_points fits64 d v m) (fun l => StronglySorted (fun x y => rnum x * rden y < rnum y * rden x) l /\ (forall x, In x l -> lowest x) /\
    forall x, lowest x -> (In x l <-> 0 < rnum x <= rden x /\
      exists a, (num_pos (d_sys d) <= a < num_roots (d_sys d))%nat /\ dot r v (coroot_of r n B d a) <> 0 /\ (m * rden x | rnum x * dot r v (coroot_of r n B d a)))) (overflows fits64).
Proof. intros K L P. apply datum_of_ok in K. exact (points_run r n A B p d K v m L P). Qed.
Example C128_ex : datum_of i64 3 2 gA gB gsp D /\ integrality_points fits64 D [1; 2; 0] 1 = Ok [mkr 1 3; mkr 1 2; mkr 2 3; mkr 1 1] /\
  integrality_points fits64 D [3; 1; 0] 2 = Ok [mkr 1 2; mkr 2 3; mkr 1 1].
Proof. split; [apply datum_gsp|]. vm_compute. auto. Qed.

(** * C129: folding *)
Lemma involution_perm fits r n A B p d g pi : datum_of fits r n A B p d -> permutes_simple r n A B g pi -> involutive r g -> forall i, (i < n)%nat -> pi (pi i) = i.
Proof.
  intros K Hp Hi i Li. apply datum_of_ok in K. destruct (Hp i Li) as (P1 & P2 & _), (Hp _ (proj1 (Hp i Li))) as (P3 & P4 & _). rewrite <- P2, Hi in P4 by apply fcol_length.
  destruct (k_simple r n A B p d K i Li) as (S1 & _), (k_simple r n A B p d K _ P3) as (S2 & _).
  assert (Q : d_simple d (pi (pi i)) = d_simple d i).
  { rewrite <- (root_index_run r n A B p d K _ S1), <- (root_index_run r n A B p d K _ S2). rewrite (proj1 (simple_emb r n A B p d K _ Li)), (proj1 (simple_emb r n A B p d K _ P3)). rewrite P4. reflexivity. }
  change (d_npos d + pi (pi i) = d_npos d + i)%nat in Q. lia.
Qed.
(** the orbits of an automorphism that permutes the simple roots by [pi] are listed with their types; for an involution
    every generator occurs once *)
Theorem C129_orbits (fits : Z -> bool) (r n : nat) (A B : nat -> nat -> Z) (p : predatum) (d : datum) (q : matrix Z) (g : nat -> nat -> Z) (pi : nat -> nat) : datum_of fits r n A B p d ->
  is_mx q r r g -> permutes_simple r n A B g pi ->
  gives (fold_orbits fits d q) (fun l => orbits_of n pi (fun i j => pairings r A B i j = 0) l /\ (involutive r g -> Permutation (flat_map gens_of l) (seq 0 n))) (overflows fits).
Proof.
  intros K0 Hq Hp. pose proof (datum_of_ok _ _ _ _ _ _ _ K0) as K. eapply gives_mono; [exact (fold_orbits_run fits r n A B p d K q g pi Hq Hp)|]. intros l (O & C). split; [exact O|]. intros Hi. apply C. apply (involution_perm fits r n A B p d g pi K0 Hp Hi).
Qed.
(** the version for a list of roots; it throws an exception when the image of one of them is not in the list *)
Theorem C129_orbits_in (fits : Z -> bool) (r n : nat) (A B : nat -> nat -> Z) (p : predatum) (d : datum) (L : list nat) (q : matrix Z) (g : nat -> nat -> Z) : datum_of fits r n A B p d ->
  Forall (fun a => (a < num_roots (d_sys d))%nat) L -> is_mx q r r g ->
  gives (fold_orbits_in fits d L q) (fun l => exists pi,
      (forall k, (k < length L)%nat -> (pi k < length L)%nat /\ image_by r g (root_of r n A d (nth k L 0%nat)) = root_of r n A d (nth (pi k) L 0%nat)) /\
      orbits_of (length L) pi (fun i j => dot r (root_of r n A d (nth i L 0%nat)) (coroot_of r n B d (nth j L 0%nat)) = 0) l /\
      (NoDup L -> involutive r g -> Permutation (flat_map gens_of l) (seq 0 (length L))))
    (fun e => overflows fits e \/ e = Thrown /\ exists a, In a L /\ forall b, In b L -> image_by r g (root_of r n A d a) <> root_of r n A d b).
Proof. intros K HL. apply datum_of_ok in K. exact (fold_in_run fits r n A B p d K L HL q g). Qed.
(** the folded roots and coroots *)
Theorem C129_folded (fits : Z -> bool) (r n : nat) (A B : nat -> nat -> Z) (p : predatum) (d : datum) (l : list ext_gen) : datum_of fits r n A B p d ->
  Forall (fun x => word n (gens_of x)) l ->
  gives (cofold_pre fits d l) (fun q => p_prefer q = p_prefer p /\
    is_mx (p_roots q) r (length l) (fun i j => co (orbit_root r (fcol r A) (nth j l (One 0))) i) /\
    is_mx (p_coroots q) r (length l) (fun i j => co (orbit_coroot r (fcol r B) (nth j l (One 0))) i)) (overflows fits).
Proof. intros K. apply datum_of_ok in K. exact (cofold_run fits r n A B p d K l). Qed.
(** for the orbits of an involution their pairings have the properties of a Cartan matrix, the folded roots are fixed, and
    the reflections are those of the longest elements for the orbits, on all weights that the involution fixes *)
Theorem C129_Cartan (fits : Z -> bool) (r n : nat) (A B : nat -> nat -> Z) (p : predatum) (d : datum) (g : nat -> nat -> Z) (pi : nat -> nat) (l : list ext_gen) : datum_of fits r n A B p d ->
  permutes_simple r n A B g pi -> involutive r g -> orbits_of n pi (fun i j => pairings r A B i j = 0) l ->
  let pair x y := dot r (orbit_root r (fcol r A) x) (orbit_coroot r (fcol r B) y) in
  (forall x, In x l -> word n (gens_of x) /\ pair x x = 2) /\
  (forall x y, In x l -> In y l -> x <> y -> pair x y <= 0 /\ (pair x y = 0 -> pair y x = 0)) /\
  (forall x, In x l -> image_by r g (orbit_root r (fcol r A) x) = orbit_root r (fcol r A) x) /\
  (forall x v, In x l -> length v = r -> image_by r g v = v ->
    reflect_at r (orbit_root r (fcol r A) x) (orbit_coroot r (fcol r B) x) v = act_by r (fcol r A) (fcol r B) (word_of x) v).
Proof.
  intros K0 Hp Hi O pair. pose proof (datum_of_ok _ _ _ _ _ _ _ K0) as K. pose proof (involution_perm fits r n A B p d g pi K0 Hp Hi) as Inv.
  split; [|split; [|split]].
  - intros x I. split; [apply (orbit_gens r n A B g pi l Hp O x I)|apply (orbit_diagonal r n A B p d K g pi l Hp Inv O x I)].
  - intros x y Ix Iy N. split; [apply (orbit_away fits r n A B p d K g pi l Hp Inv O x y Ix Iy N)|apply (orbit_zero r n A B p d K g pi l Hp Inv O x y Ix Iy N)].
  - intros x I. apply (orbit_fixed r n A B p d K g pi l Hp Inv O x I).
  - intros x v I. apply (orbit_reflection r n A B p d K g pi l Hp Inv O x v I).
Qed.
Example C129_ex : datum_of i32 4 3 (lA 4) (lA 4) (gl_pre 4) GL4 /\ datum_of i32 3 2 (lA 3) (lA 3) (gl_pre 3) GL3 /\
  is_mx (gl_rev 4) 4 4 (ent 4 (mdata (gl_rev 4))) /\ permutes_simple 4 3 (lA 4) (lA 4) (ent 4 (mdata (gl_rev 4))) (fun i => 2 - i)%nat /\ involutive 4 (ent 4 (mdata (gl_rev 4))) /\
  fold_orbits i32 GL4 (gl_rev 4) = Ok [Two 0 2; One 1] /\ fold_orbits i32 GL3 (gl_rev 3) = Ok [Three 0 1] /\
  fold_orbits_in i32 GL4 [7; 11; 9; 10]%nat (gl_rev 4) = Ok [One 0; One 1; Two 2 3] /\ fold_orbits_in i32 GL4 [6; 7]%nat (gl_rev 4) = Fail Thrown /\
  cofold_pre i32 GL4 [Two 0 2; One 1] = Ok (mk_pre (mk_mat 4 2 [1; 0; -1; 1; 1; -1; -1; 0]) (mk_mat 4 2 [1; 0; -1; 1; 0; -1; 0; 0]) false) /\
  cofold_pre i32 GL3 [Three 0 1] = Ok (mk_pre (mk_mat 3 1 [1; 0; -1]) (mk_mat 3 1 [1; 0; -1]) false) /\
  (exists d2, cofold i32 GL4 [Two 0 2; One 1] = Ok d2 /\ length (d_roots d2) = 8%nat).
Proof.
  split; [exact datum_gl4|]. split; [exact datum_gl3|]. split; [exact gl4_mx|]. split; [exact gl4_permutes|]. split; [exact gl4_inv|]. split; [vm_compute; reflexivity|]. split; [vm_compute; reflexivity|]. split; [vm_compute; reflexivity|].
  split; [vm_compute; reflexivity|]. split; [vm_compute; reflexivity|]. split; [vm_compute; reflexivity|]. eexists. split; vm_compute; reflexivity.
Qed.

Print Assumptions C124_distinguished.
Print Assumptions C124_dual.
Print Assumptions C125_rho.
Print Assumptions C125_moved.
Print Assumptions C125_sums.
Print Assumptions C126_product.
Print Assumptions C126_orthogonal.
Print Assumptions C127_coroots.
Print Assumptions C127_simples.
Print Assumptions C127_predatum.
Print Assumptions C127_simple.
Print Assumptions C128_points.
Print Assumptions C129_orbits.
Print Assumptions C129_orbits_in.
Print Assumptions C129_folded.
Print Assumptions C129_Cartan.
