(** C149-C156: the tables of an involution: factors of 1 minus the involution, representatives of weights and of torus
    parts, and passage to a conjugate involution. *)

From Coq Require Import List Arith ZArith QArith Bool Lia Lqa.
From Verif Require Import RedModel LatModel RedSpec LatSpec RootProps.
From Verif Require Import F2Model F2Spec F2Proofs SubqModel SubqSpec SubqProofs.
From Verif Require Import VecModel VecProofs RunModel RunProofs MatModel MatSpec MatLin MatProofs RatVecModel RatVecSpec RatVecProofs YvModel YvSpec ToriModel ToriSpec ToriLat ToriProofs.
From Verif Require Import RootModel RootSpec RootMath RootProps DatModel DatSpec DatMath DatProofs DatProps DatProps2 DfSpec DfProps IvModel IvSpec IvDatum IvProps ToriProps YvProps.
From Verif Require Import UqModel UqSpec UqMath UqProofs UqReal UqCross UqPack UqFiber UqAct.
Import ListNotations.
Open Scope Z_scope.

(** * C149: a record holds the two factors of 1 minus the involution *)
Theorem C149_factors fits as_int M n th : (forall z, as_int z = z) -> is_mx M n n th ->
  gives (real_maps fits as_int M) (fun '(mr, lm) => exists k m g, is_mx mr k n m /\ is_mx lm n k g /\ factors n k th m g) (overflows fits).
Proof. intros Hint. exact (real_maps_ok fits as_int Hint M n th). Qed.
(** for an involution the product in the other order is multiplication by 2 *)
Theorem C149_two n k th m g y j : factors n k th m g -> is_involution n th -> (j < k)%nat -> fapply n m (fapply k g y) j = 2 * y j.
Proof. intros F Inv. exact (fac_two n k th m g F Inv y j). Qed.
Theorem C149_record fits as_int r n A B p d M th : (forall z, as_int z = z) -> datum_ok r n A B p d -> is_mx M r r th -> is_involution r th -> automorphism r n A B th ->
  gives (first_record fits as_int d M) (fun me => ir_theta me = M /\ exists k m g x, record_at r k th m g me /\
    is_vec (ir_rho me) r x /\ forall i, (i < r)%nat -> 2 * x i = co (d_2rho d) i + fapply r th (co (d_2rho d)) i) (overflows fits).
Proof.
  intros Hint K HM Inv Aut. unfold first_record.
  eapply gives_bind; [apply (C149_factors fits as_int M r th Hint HM)|]. intros [mr lm] (k & m & g & Hm & Hl & F).
  eapply gives_bind; [apply (first_rho_run fits r n A B p d K M th HM Inv Aut)|]. intros v (x & Vx & Hx).
  cbn [gives]. split; [reflexivity|]. exists k, m, g, x. split; [|split; [exact Vx|exact Hx]]. split; [exact HM|]. split; [exact Hm|]. split; [exact Hl|]. split; [exact Inv|exact F].
Qed.
Print Assumptions C149_factors.
Print Assumptions C149_two.
Print Assumptions C149_record.
Definition m4 (i j : nat) : Z := nth (4 * i + j) [0; 1; 0; 0; 0; 0; 0; 1] 0.
Definition g4 (i j : nat) : Z := nth (2 * i + j) [1; 0; 2; 0; 0; 2; 0; 2] 0.
Definition me4 : irec := mk_irec tau4 (mk_mat 2 4 [0; 1; 0; 0; 0; 0; 0; 1]) (mk_mat 4 2 [1; 0; 2; 0; 0; 2; 0; 2]) [].
Lemma me4_factors : factors 4 2 tf m4 g4.
Proof.
  split; [intros i j Hi Hj; cases4 i j|]. split.
  - intros x H j Hj. pose proof (H 0%nat ltac:(lia)) as H0. pose proof (H 2%nat ltac:(lia)) as H2.
    change (1 * x 0%nat + 0 * x 1%nat = 0) in H0. change (0 * x 0%nat + 2 * x 1%nat = 0) in H2. destruct j as [|[|j]]; lia.
  - intros y. exists (fun i => if (i =? 1)%nat then y 0%nat else if (i =? 3)%nat then y 1%nat else 0). intros j Hj.
    destruct j as [|[|j]]; [| |lia]; [vm_compute; destruct (y 0%nat); reflexivity|vm_compute; destruct (y 1%nat); reflexivity].
Qed.
Lemma me4_record : record_at 4 2 tf m4 g4 me4.
Proof.
  split; [exact tau4_mx|]. split; [split; [reflexivity|]; split; [reflexivity|]; split; [reflexivity|]; intros i j Hi Hj; do 2 (destruct i as [|i]; [do 4 (destruct j as [|j]; [vm_compute; reflexivity|]); lia|]); lia|].
  split; [split; [reflexivity|]; split; [reflexivity|]; split; [reflexivity|]; intros i j Hi Hj; do 4 (destruct i as [|i]; [do 2 (destruct j as [|j]; [vm_compute; reflexivity|]); lia|]); lia|].
  split; [exact tf_involution|exact me4_factors].
Qed.
Definition meD : irec := mk_irec refl0 (mk_mat 1 3 [-1; 1; 0]) (mk_mat 3 1 [-1; 1; 0]) [3; 3; -3].
Definition refl0f : nat -> nat -> Z := ent 3 (mdata refl0).
Lemma refl0_involution : is_involution 3 refl0f.
Proof. intros i j Hi Hj. do 3 (destruct i as [|i]; [do 3 (destruct j as [|j]; [vm_compute; reflexivity|]); lia|]); lia. Qed.
Example C149_ex : is_mx tau4 4 4 tf /\ is_involution 4 tf /\ factors 4 2 tf m4 g4 /\ real_maps i32 (fun z => z) tau4 = Ok (ir_real me4, ir_lift me4) /\
  datum_ok 3 2 gA gB gsp D /\ is_mx refl0 3 3 refl0f /\ is_involution 3 refl0f /\ automorphism 3 2 gA gB refl0f /\ first_record i32 (fun z => z) D refl0 = Ok meD /\ d_2rho D = [4; 2; -3].
Proof.
  split; [exact tau4_mx|]. split; [exact tf_involution|]. split; [exact me4_factors|]. split; [vm_compute; reflexivity|].
  split; [apply (datum_of_ok i32), datum_gsp|]. split; [exact refl0_mx|]. split; [exact refl0_involution|]. split; [exact refl0_auto|]. split; vm_compute; reflexivity.
Qed.

Lemma anti_sub n th x y i : anti n th (fun j => x j - y j) i = anti n th x i - anti n th y i.
Proof. unfold anti. rewrite (fapply_sub n th x y). ring. Qed.
Lemma apart_sym n th x y : anti_apart n th x y -> anti_apart n th y x.
Proof. intros (z & H). exists (fun j => 0 - z j). intros i Hi. rewrite (anti_sub n th (fun _ => 0) z i), <- (H i Hi). unfold anti, fapply. rewrite zsum_zero by (intros; lia). lia. Qed.
Lemma apart_trans n th x y w : anti_apart n th x y -> anti_apart n th y w -> anti_apart n th x w.
Proof. intros H (z' & H'). apply apart_sym in H. destruct H as (z & H). exists (fun j => z' j - z j). intros i Hi. rewrite anti_sub. rewrite <- (H i Hi), <- (H' i Hi). ring. Qed.
Lemma is_vec_eq (v w : list Z) n x y : is_vec v n x -> is_vec w n y -> (v = w <-> forall i, (i < n)%nat -> x i = y i).
Proof.
  intros (Lv & Hv) (Lw & Hw). split.
  - intros <- i Hi. specialize (Hv i Hi). rewrite (Hw i Hi) in Hv. injection Hv as ->. reflexivity.
  - intros H. apply (nth_ext v w 0 0); [congruence|]. intros i Hi. rewrite Lv in Hi. rewrite (get_nth_eq _ _ 0 _ (Hv i Hi)), (get_nth_eq _ _ 0 _ (Hw i Hi)). apply H; exact Hi.
Qed.

(** * C150: representatives of weights modulo the image of 1 minus the involution *)
Theorem C150_representative fits n k th m g me lam x : record_at n k th m g me -> is_vec lam n x ->
  gives (lambda_unique fits me lam) (fun mu => exists y, is_vec mu n y /\ anti_apart n th y x /\ forall j, (j < k)%nat -> 0 <= fapply n m y j < 2) (overflows fits).
Proof.
  intros H V. eapply gives_mono; [apply (lambda_unique_run fits n k th m g me H lam x V)|]. intros mu Hmu. cbn beta in Hmu.
  destruct (unique_ok n k th m g (proj2 (proj2 (proj2 (proj2 H)))) (proj1 (proj2 (proj2 (proj2 H)))) x) as (A & B). eexists. split; [exact Hmu|]. split; [exact A|].
  intros j Hj. cbv zeta in B. rewrite (B j Hj). apply Z.mod_pos_bound. lia.
Qed.
Theorem C150_same fits n k th m g me lam x lam' x' mu mu' : record_at n k th m g me -> is_vec lam n x -> is_vec lam' n x' ->
  lambda_unique fits me lam = Ok mu -> lambda_unique fits me lam' = Ok mu' -> (mu = mu' <-> anti_apart n th x x').
Proof.
  intros H V V' E E'. pose proof (lambda_unique_run fits n k th m g me H lam x V) as R. pose proof (lambda_unique_run fits n k th m g me H lam' x' V') as R'.
  rewrite E in R. rewrite E' in R'. cbn [gives] in R, R'. set (F := proj2 (proj2 (proj2 (proj2 H)))). set (Inv := proj1 (proj2 (proj2 (proj2 H)))).
  rewrite (is_vec_eq mu mu' n _ _ R R'). split.
  - intros Eq. destruct (unique_ok n k th m g F Inv x) as (A & _). destruct (unique_ok n k th m g F Inv x') as (A' & _). cbv zeta in A, A'.
    apply (apart_trans n th x (fun i => x i - fapply k g (fun j => fapply n m x j / 2) i)); [apply apart_sym; exact A|].
    destruct A' as (z & Hz). exists z. intros i Hi. rewrite (Eq i Hi). apply Hz; exact Hi.
  - intros A. exact (unique_same n k th m g F Inv x x' A).
Qed.
Print Assumptions C150_representative.
Print Assumptions C150_same.
Definition v4 (a b c d : Z) (i : nat) : Z := nth i [a; b; c; d] 0.
Lemma v4_vec a b c d : is_vec [a; b; c; d] 4 (v4 a b c d).
Proof. split; [reflexivity|]. intros i Hi. do 4 (destruct i as [|i]; [reflexivity|]). lia. Qed.
Example C150_ex : record_at 4 2 tf m4 g4 me4 /\ is_vec [5; 2; -3; 7] 4 (v4 5 2 (-3) 7) /\ lambda_unique i32 me4 [5; 2; -3; 7] = Ok [4; 0; -9; 1] /\
  lambda_unique i32 me4 [6; 4; -5; 5] = Ok [4; 0; -9; 1] /\ lambda_unique i32 me4 [6; 4; -5; 4] = Ok [4; 0; -9; 0] /\
  anti_apart 4 tf (v4 6 4 (-5) 5) (v4 5 2 (-3) 7).
Proof.
  split; [exact me4_record|]. split; [apply v4_vec|]. split; [vm_compute; reflexivity|]. split; [vm_compute; reflexivity|]. split; [vm_compute; reflexivity|].
  exists (v4 0 1 0 (-1)). intros i Hi. do 4 (destruct i as [|i]; [vm_compute; reflexivity|]). lia.
Qed.

(** * C151: parities of weights, their lifts, and their images *)
Theorem C151_pack dim fits n k th m g me lam x : record_at n k th m g me -> (k <= dim)%nat -> is_vec lam n x ->
  gives (y_pack dim fits me lam) (fun y => bsize y = k /\ mod2 k (fapply n m x) (data y)) (overflows fits).
Proof. intros H. exact (y_pack_run dim fits n k th m g me H lam x). Qed.
Theorem C151_pack_same dim fits n k th m g me lam x lam' x' y y' : record_at n k th m g me -> (k <= dim)%nat -> is_vec lam n x -> is_vec lam' n x' ->
  y_pack dim fits me lam = Ok y -> y_pack dim fits me lam' = Ok y' ->
  (y = y' <-> exists z, forall i, (i < n)%nat -> anti n th x i - anti n th x' i = 2 * anti n th z i).
Proof.
  intros H Hk V V' E E'. pose proof (y_pack_run dim fits n k th m g me H lam x Hk V) as R. pose proof (y_pack_run dim fits n k th m g me H lam' x' Hk V') as R'.
  rewrite E in R. rewrite E' in R'. destruct R as (S & M), R' as (S' & M').
  rewrite <- (pack_same n k th m g (proj2 (proj2 (proj2 (proj2 H)))) x x'). split.
  - intros <- j Hj. rewrite <- (proj2 M j Hj). apply M'. exact Hj.
  - intros P. destruct y as [a b], y' as [a' b']. cbn [data bsize] in *. subst b b'. f_equal. apply (mod2_unique k (fapply n m x)); [exact M|].
    split; [apply M'|]. intros j Hj. rewrite (P j Hj). apply M'. exact Hj.
Qed.
Theorem C151_lift dim fits n k th m g me y : record_at n k th m g me -> (k <= dim)%nat -> bsize y = k ->
  gives (y_lift dim fits me y) (fun v => is_vec v n (fapply k g (bit (data y)))) (overflows fits).
Proof. intros H. exact (y_lift_run dim fits n k th m g me H y). Qed.
(** the lift of the parities of a weight is its image by 1 minus the involution, up to doubles *)
Theorem C151_lift_pack dim fits n k th m g me lam x : record_at n k th m g me -> (k <= dim)%nat -> is_vec lam n x ->
  gives (run y <- y_pack dim fits me lam; y_lift dim fits me y) (fun v => exists u z, is_vec v n u /\ forall i, (i < n)%nat -> u i = anti n th x i + 2 * anti n th z i) (overflows fits).
Proof.
  intros H Hk V. set (F := proj2 (proj2 (proj2 (proj2 H)))).
  eapply gives_bind; [apply (C151_pack dim fits n k th m g me lam x H Hk V)|]. intros y (Sy & My).
  eapply gives_mono; [apply (C151_lift dim fits n k th m g me y H Hk Sy)|]. intros v Hv. cbn beta in Hv.
  destruct (proj2 (proj2 F) (bit (data y))) as (w & Hw).
  assert (P : forall j, (j < k)%nat -> Z.odd (fapply n m w j) = Z.odd (fapply n m x j)).
  { intros j Hj. rewrite (Hw j Hj), <- (proj2 My j Hj). unfold bit. destruct (F2Spec.coord (data y) j); reflexivity. }
  apply (pack_same n k th m g F) in P. destruct P as (z & Hz). exists (fapply k g (bit (data y))), z. split; [exact Hv|]. intros i Hi.
  specialize (Hz i Hi). rewrite <- (fac_apply n k th m g F w i Hi) in Hz.
  rewrite (fapply_ext k g (bit (data y)) (fapply n m w)) by (intros; symmetry; apply Hw; assumption). lia.
Qed.
(** the parities are recovered from the lift *)
Theorem C151_unlift_lift dim fits n k th m g me y : record_at n k th m g me -> (k <= dim)%nat -> bsize y = k -> within k (data y) ->
  gives (run v <- y_lift dim fits me y; y_unlift dim fits me v) (fun u => u = y) (overflows fits).
Proof.
  intros H Hk Sy W. set (F := proj2 (proj2 (proj2 (proj2 H)))). set (Inv := proj1 (proj2 (proj2 (proj2 H)))).
  eapply gives_bind; [apply (C151_lift dim fits n k th m g me y H Hk Sy)|]. intros v Hv. cbn beta in Hv.
  assert (T : forall j, (j < k)%nat -> fapply n m (fapply k g (bit (data y))) j = 2 * bit (data y) j) by (intros; apply (fac_two n k th m g F Inv); assumption).
  eapply gives_conv; [| |apply (y_unlift_run dim fits n k th m g me H v _ Hk Hv)].
  - intros u (Su & t & Ht & Mu). destruct y as [a b], u as [a' b']. cbn [data bsize] in *. subst b b'. f_equal. apply (mod2_unique k t); [exact Mu|]. split; [exact W|].
    intros j Hj. specialize (Ht j Hj). rewrite (T j Hj) in Ht. assert (E : t j = bit a j) by lia. rewrite E. unfold bit. destruct (F2Spec.coord a j); reflexivity.
  - intros e [(_ & j & Hj & N)|B]; [|exact B]. exfalso. apply N. rewrite (T j Hj). exists (bit (data y) j). ring.
Qed.
(** the exception is for vectors with an odd coordinate only *)
Theorem C151_unlift dim fits n k th m g me v x : record_at n k th m g me -> (k <= dim)%nat -> is_vec v n x ->
  gives (y_unlift dim fits me v) (fun y => bsize y = k /\ exists t, (forall j, (j < k)%nat -> fapply n m x j = 2 * t j) /\ mod2 k t (data y))
    (fun e => e = Thrown /\ (exists j, (j < k)%nat /\ ~ (2 | fapply n m x j)) \/ overflows fits e).
Proof. intros H. exact (y_unlift_run dim fits n k th m g me H v x). Qed.
(** a map [f] between two involutions takes the parities of a weight to those of its image *)
Theorem C151_act dim fits n k k' th m g th' m' g' f i0 i1 delta y x : record_at n k th m g i0 -> record_at n k' th' m' g' i1 ->
  is_mx delta n n f -> feq n n (fmul n f th) (fmul n th' f) -> (k <= dim)%nat -> (k' <= dim)%nat -> bsize y = k -> mod2 k (fapply n m x) (data y) ->
  gives (y_act dim fits i0 i1 y delta) (fun u => bsize u = k' /\ mod2 k' (fapply n m' (fapply n f x)) (data u)) (overflows fits).
Proof. intros H0 H1 Hd Tw. exact (y_act_run dim fits n k k' th m g th' m' g' f i0 i1 delta H0 H1 Hd Tw y x). Qed.
Print Assumptions C151_pack.
Print Assumptions C151_pack_same.
Print Assumptions C151_lift.
Print Assumptions C151_lift_pack.
Print Assumptions C151_unlift_lift.
Print Assumptions C151_unlift.
Print Assumptions C151_act.
Example C151_ex : record_at 4 2 tf m4 g4 me4 /\ is_vec [5; 3; -3; 8] 4 (v4 5 3 (-3) 8) /\ y_pack 32 i32 me4 [5; 3; -3; 8] = Ok (mk_bv 1 2) /\ y_lift 32 i32 me4 (mk_bv 1 2) = Ok [1; 2; 0; 0] /\
  y_unlift 32 i32 me4 [1; 2; 0; 0] = Ok (mk_bv 1 2) /\ within 2 1 /\ y_unlift 32 i32 me4 [1; 2; 1; 1] = Fail Thrown /\
  is_mx tau4 4 4 tf /\ feq 4 4 (fmul 4 tf tf) (fmul 4 tf tf) /\ mod2 2 (fapply 4 m4 (v4 5 3 (-3) 8)) 1 /\ y_act 32 i32 me4 me4 (mk_bv 1 2) tau4 = Ok (mk_bv 1 2).
Proof.
  assert (W : within 2 1) by (intros i Hi; unfold coord; apply N.bits_above_log2; cbn; lia).
  split; [exact me4_record|]. split; [apply v4_vec|]. split; [vm_compute; reflexivity|]. split; [vm_compute; reflexivity|]. split; [vm_compute; reflexivity|]. split; [exact W|]. split; [vm_compute; reflexivity|].
  split; [exact tau4_mx|]. split; [intros i j _ _; reflexivity|]. split; [|vm_compute; reflexivity]. split; [exact W|]. intros i Hi. do 2 (destruct i as [|i]; [vm_compute; reflexivity|]). lia.
Qed.

(** * C152: representatives of rational weights *)
Theorem C152_real_unique n k th m g me y q : record_at n k th m g me -> is_rv y n q ->
  gives (real_unique me y) (fun r => exists p, is_rv r n p /\ reduced r /\ real_class n k th g q p) (fun e => e = Overflow).
Proof. intros H. exact (real_unique_ok n k th m g me H y q). Qed.
(** the representatives are equal exactly when the images by 1 minus the involution differ by doubles of its image *)
Theorem C152_same n k th m g me q1 q2 p1 p2 : record_at n k th m g me -> real_class n k th g q1 p1 -> real_class n k th g q2 p2 ->
  ((forall i, (i < n)%nat -> (p1 i == p2 i)%Q) <-> exists z, forall i, (i < n)%nat -> (antiQ n th q1 i - antiQ n th q2 i == inject_Z (2 * anti n th z i))%Q).
Proof. intros H. exact (real_same n k th m g me H q1 q2 p1 p2). Qed.
Print Assumptions C152_real_unique.
Print Assumptions C152_same.
Example C152_ex : record_at 4 2 tf m4 g4 me4 /\ is_rv (mk_rv [1; 5; 3; 4] 3) 4 (fun i => (inject_Z (nth i [1; 5; 3; 4]%Z 0%Z) / inject_Z 3)%Q) /\
  real_unique me4 (mk_rv [1; 5; 3; 4] 3) = Ok (mk_rv [5; 10; 8; 8] 6) /\ real_unique me4 (mk_rv [2; 11; 3; -2] 3) = Ok (mk_rv [5; 10; 8; 8] 6) /\
  real_unique me4 (mk_rv [2; 8; 3; -2] 3) = Ok (mk_rv [1; 2; 4; 4] 3).
Proof. split; [exact me4_record|]. split; [apply (rv_vec [1; 5; 3; 4]); [lia|repeat constructor; lia]|]. split; [vm_compute; reflexivity|]. split; vm_compute; reflexivity. Qed.

(** * C153: the record of the conjugate by a simple reflection *)
Theorem C153_cross fits r n A B p d i beta k th m g me x : datum_ok r n A B p d -> (i < n)%nat -> record_at r k th m g me ->
  is_vec (ir_rho me) r x -> (forall j, (j < r)%nat -> 2 * x j = co (d_2rho d) j + fapply r th (co (d_2rho d)) j) ->
  let S := rmatrix (fcol r A i) (fcol r B i) in
  (beta < num_roots (d_sys d))%nat -> weight d beta = image_by r (conjugate r S th) (fcol r A i) ->
  gives (cross_record fits d i beta me) (fun me' => record_at r k (conjugate r S th) (fmul r m S) (fmul r S g) me' /\
    exists y, is_vec (ir_rho me') r y /\ forall j, (j < r)%nat -> 2 * y j = co (d_2rho d) j + fapply r (conjugate r S th) (co (d_2rho d)) j) (overflows fits).
Proof.
  intros K Hi Rec Vx Hx S Hb W. apply (cross_run fits r n A B p d K i beta k th m g me Hi Rec); [|exact Hb|exact W]. exists x. split; [exact Vx|exact Hx].
Qed.
Print Assumptions C153_cross.
Definition mD (i j : nat) : Z := nth (3 * i + j) [-1; 1; 0] 0.
Definition gD (i j : nat) : Z := nth (i + j) [-1; 1; 0] 0.
Lemma meD_record : record_at 3 1 refl0f mD gD meD.
Proof.
  split; [exact refl0_mx|]. split; [split; [reflexivity|]; split; [reflexivity|]; split; [reflexivity|]; intros i j Hi Hj; destruct i as [|i]; [do 3 (destruct j as [|j]; [vm_compute; reflexivity|]); lia|lia]|].
  split; [split; [reflexivity|]; split; [reflexivity|]; split; [reflexivity|]; intros i j Hi Hj; do 3 (destruct i as [|i]; [destruct j as [|j]; [vm_compute; reflexivity|lia]|]); lia|].
  split; [exact refl0_involution|]. split; [intros i j Hi Hj; do 3 (destruct i as [|i]; [do 3 (destruct j as [|j]; [vm_compute; reflexivity|]); lia|]); lia|]. split.
  - intros x H j Hj. pose proof (H 1%nat ltac:(lia)) as H1. change (1 * x 0%nat = 0) in H1. destruct j; lia.
  - intros y. exists (fun i => if (i =? 1)%nat then y 0%nat else 0). intros j Hj. destruct j as [|j]; [|lia]. vm_compute. destruct (y 0%nat); reflexivity.
Qed.
Example C153_ex : datum_ok 3 2 gA gB gsp D /\ record_at 3 1 refl0f mD gD meD /\ is_vec (ir_rho meD) 3 (fun i => nth i [3; 3; -3] 0) /\
  (forall j, (j < 3)%nat -> 2 * nth j [3; 3; -3] 0 = co (d_2rho D) j + fapply 3 refl0f (co (d_2rho D)) j) /\
  weight D 0 = image_by 3 (conjugate 3 (rmatrix (fcol 3 gA 1) (fcol 3 gB 1)) refl0f) (fcol 3 gA 1) /\
  cross_record i32 D 1 0 meD = Ok (mk_irec (mk_mat 3 3 [0; -1; 0; -1; 0; 0; 1; 1; 1]) (mk_mat 1 3 [-1; -1; 0]) (mk_mat 3 1 [-1; -1; 1]) [1; -1; 0]).
Proof.
  split; [apply (datum_of_ok i32), datum_gsp|]. split; [exact meD_record|]. split; [split; [reflexivity|]; intros i Hi; do 3 (destruct i as [|i]; [reflexivity|]); lia|].
  split; [intros j Hj; do 3 (destruct j as [|j]; [vm_compute; reflexivity|]); lia|]. split; vm_compute; reflexivity.
Qed.

(** * C154: torus parts up to equivalence *)
Theorem C154_projector fits as_int M n th : (forall z, as_int z = z) -> is_mx M n n th ->
  gives (x_projector fits as_int M) (fun P => exists k g, is_mx P k n g /\ projects n k th g) (overflows fits).
Proof. intros Hint. exact (projector_run fits as_int Hint M n th). Qed.
Theorem C154_pack fits as_int me n th wt q : (forall z, as_int z = z) -> is_mx (ir_theta me) n n th -> is_rv wt n q ->
  gives (x_pack fits as_int me wt) (fun v => exists k g p, projects n k th g /\ is_rv v k p /\ reduced v /\ frac_of n k g q p) (fun e => e = Overflow).
Proof.
  intros Hint HM R. pose proof (C154_projector fits as_int (ir_theta me) n th Hint HM) as X. destruct (x_projector fits as_int (ir_theta me)) as [P|e] eqn:E; cbn [gives] in X.
  - destruct X as (k & g & HP & Pr). eapply gives_mono; [apply (x_pack_run fits as_int me n th wt q P k g E HP Pr R)|]. intros v (p & A & B & C). exists k, g, p. auto.
  - unfold x_pack. rewrite E. cbn [bind gives]. apply X.
Qed.
(** equal results, for two torus parts at the same involution, mean equivalent ones *)
Theorem C154_pack_same n k th g q0 q1 p0 p1 : projects n k th g -> frac_of n k g q0 p0 -> frac_of n k g q1 p1 ->
  ((forall j, (j < k)%nat -> (p0 j == p1 j)%Q) <-> torus_apart n th q0 q1).
Proof. intros Pr F0 F1. rewrite (apart_iff n k th g q0 q1 Pr). exact (frac_same n k g q0 q1 p0 p1 F0 F1). Qed.
Theorem C154_equiv fits as_int me n th w0 w1 q0 q1 : (forall z, as_int z = z) -> is_mx (ir_theta me) n n th -> is_rv w0 n q0 -> is_rv w1 n q1 ->
  Z.lcm (den w0) (den w1) < 2 ^ 63 -> (forall i, (i < n)%nat -> holds (Z.lcm (den w0) (den w1)) (q0 i - q1 i)%Q) ->
  gives (x_equiv fits as_int me w0 w1) (fun b => b = true <-> torus_apart n th q0 q1) (fun e => e = Overflow).
Proof.
  intros Hint HM R0 R1 HL HH. pose proof (C154_projector fits as_int (ir_theta me) n th Hint HM) as X. destruct (x_projector fits as_int (ir_theta me)) as [P|e] eqn:E; cbn [gives] in X.
  - destruct X as (k & g & HP & Pr). exact (x_equiv_run fits as_int me n th w0 w1 q0 q1 P k g E HP Pr R0 R1 HL HH).
  - unfold x_equiv. pose proof (RatVecProps.C83_sub w0 w1 n q0 q1 R0 R1 HL HH) as Y. destruct (rv_sub w0 w1) as [wt|e']; cbn [bind gives] in *; [rewrite E; cbn [bind gives]; apply X|apply Y].
Qed.
Print Assumptions C154_projector.
Print Assumptions C154_pack.
Print Assumptions C154_pack_same.
Print Assumptions C154_equiv.
Example C154_ex : is_mx (ir_theta me4) 4 4 tf /\ is_rv (mk_rv [1; 2; 3; 4] 3) 4 (fun i => (inject_Z (nth i [1; 2; 3; 4]%Z 0%Z) / inject_Z 3)%Q) /\
  (forall i, (i < 4)%nat -> holds (Z.lcm 3 3) (inject_Z (nth i [1; 2; 3; 4]%Z 0%Z) / inject_Z 3 - inject_Z (nth i [1; 5; 3; 4]%Z 0%Z) / inject_Z 3)%Q) /\
  x_pack i32 (fun z => z) me4 (mk_rv [1; 2; 3; 4] 3) = Ok (mk_rv [1; 0] 3) /\ x_pack i32 (fun z => z) me4 (mk_rv [1; 2; 6; 4] 5) = Ok (mk_rv [1; 1] 5) /\
  x_equiv i32 (fun z => z) me4 (mk_rv [1; 2; 3; 4] 3) (mk_rv [1; 5; 3; 4] 3) = Ok true /\ x_equiv i32 (fun z => z) me4 (mk_rv [1; 2; 3; 4] 3) (mk_rv [1; 2; 6; 4] 5) = Ok false.
Proof.
  split; [exact tau4_mx|]. split; [apply (rv_vec [1; 2; 3; 4]); [lia|repeat constructor; lia]|].
  split; [|split; [vm_compute; reflexivity|]; split; [vm_compute; reflexivity|]; split; vm_compute; reflexivity].
  intros i Hi. exists (nth i [0; -3; 0; 0] 0%Z). do 4 (destruct i as [|i]; [split; [cbn; unfold in64; lia|vm_compute; reflexivity]|]). lia.
Qed.

(** * C155: the space by which torus parts of order 2 are taken *)
Theorem C155_fiber_denom dim fits as_int M n th : (forall z, as_int z = z) -> (n <= dim)%nat -> is_mx M n n th ->
  gives (fiber_denom dim fits as_int M) (represents n (eigen2 n (fun i j => th j i) (-1))) (overflows fits).
Proof. exact (fiber_denom_run dim fits as_int M n th). Qed.
Theorem C155_reflection dim fits r n A B p d i : datum_ok r n A B p d -> (r <= dim)%nat -> (i < n)%nat ->
  gives (torus_reflection dim fits d i) (fun M => rows M = r /\ F2Spec.is_matrix r r (cols M) /\
    forall a b, (a < r)%nat -> (b < r)%nat -> entry (cols M) a b = Z.odd (rmatrix (fcol r A i) (fcol r B i) b a)) (overflows fits).
Proof. intros K. exact (torus_reflection_run fits r n A B p d K dim i). Qed.
Theorem C155_cross dim fits r n A B p d i th V : datum_ok r n A B p d -> (r <= dim)%nat -> (i < n)%nat -> represents r (eigen2 r (fun a b => th b a) (-1)) V ->
  gives (cross_space dim fits d i V) (represents r (eigen2 r (fun a b => conjugate r (rmatrix (fcol r A i) (fcol r B i)) th b a) (-1))) (overflows fits).
Proof. intros K. exact (cross_space_run fits r n A B p d K dim i th V). Qed.
Print Assumptions C155_fiber_denom.
Print Assumptions C155_reflection.
Print Assumptions C155_cross.
Example C155_ex : is_mx tau4 4 4 tf /\ fiber_denom 32 i32 (fun z => z) tau4 = Ok (mk_ss [mk_bv 2 4; mk_bv 8 4] 10 4) /\
  datum_ok 3 2 gA gB gsp D /\ is_mx refl0 3 3 refl0f /\ fiber_denom 32 i32 (fun z => z) refl0 = Ok (mk_ss [mk_bv 3 3] 1 3) /\
  cross_space 32 i32 D 0 (mk_ss [mk_bv 3 3] 1 3) = Ok (mk_ss [mk_bv 3 3] 1 3) /\ torus_reflection 32 i32 D 0 = Ok (mk_bm [2; 1; 4]%N 3) /\
  fiber_denom 32 i32 (fun z => z) (mk_mat 3 3 [0; -1; 0; -1; 0; 0; 1; 1; 1]) = cross_space 32 i32 D 1 (mk_ss [mk_bv 3 3] 1 3).
Proof. split; [exact tau4_mx|]. split; [vm_compute; reflexivity|]. split; [apply (datum_of_ok i32), datum_gsp|]. split; [exact refl0_mx|]. split; [vm_compute; reflexivity|]. split; [vm_compute; reflexivity|]. split; vm_compute; reflexivity. Qed.

(** * C156: the orbit of an involution by binary search *)
Theorem C156_locate starts i : (0 < length starts)%nat -> (forall j k x y, (j < k)%nat -> get starts j = Some x -> get starts k = Some y -> (x <= y)%nat) -> get starts 0 = Some 0%nat ->
  exists l x, locate starts i = Ok l /\ get starts l = Some x /\ (x <= i)%nat /\ forall k y, (l < k)%nat -> get starts k = Some y -> (i < y)%nat.
Proof. exact (locate_run starts i). Qed.
Print Assumptions C156_locate.
Example C156_ex : (forall j k x y, (j < k)%nat -> get [0; 1; 3; 3; 7]%nat j = Some x -> get [0; 1; 3; 3; 7]%nat k = Some y -> (x <= y)%nat) /\
  map (locate [0; 1; 3; 3; 7]%nat) [0; 1; 2; 3; 6; 7; 9]%nat = map Ok [0; 1; 1; 3; 3; 4; 4]%nat.
Proof.
  split; [|vm_compute; reflexivity]. intros j k x y H G G'.
  do 5 (destruct k as [|k]; [do 5 (destruct j as [|j]; [try (exfalso; lia); injection G as <-; injection G' as <-; lia|]); exfalso; lia|]). destruct k; discriminate.
Qed.
