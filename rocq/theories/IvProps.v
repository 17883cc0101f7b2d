(** C147, C148: the roots sorted by an involution, and conjugation by simple reflections. *)

From Coq Require Import List Arith ZArith Bool Lia Sorted.
From Verif Require Import VecModel RunModel RunProofs MatModel MatSpec LieTypeSpec RootModel RootSpec RootTop RootExt RootProps RootBase RsfBase DatModel DatSpec DatMath DatProofs DatOps DatProps DatProps2 DfSpec DfProps
  IvModel IvSpec IvProofs IvCross IvDatum.
Import ListNotations.
Local Open Scope Z_scope.

(** * C147: imaginary, real and complex roots *)
(** the sets of roots fixed, negated, and neither, by the map on weights with matrix [g], among the roots satisfying [P] *)
Definition sorted_by (r : nat) (g : nat -> nat -> Z) (d : datum) (P : nat -> Prop) (x : invdata) : Prop :=
  (forall a, bmem (i_imag x) a = true <-> (a < num_roots (d_sys d))%nat /\ P a /\ image_by r g (weight d a) = weight d a) /\
  (forall a, bmem (i_real x) a = true <-> (a < num_roots (d_sys d))%nat /\ P a /\ image_by r g (weight d a) = opp (weight d a)) /\
  (forall a, bmem (i_complex x) a = true <-> (a < num_roots (d_sys d))%nat /\ P a /\ image_by r g (weight d a) <> weight d a /\ image_by r g (weight d a) <> opp (weight d a)).
(** the two lists of simple members, in increasing order *)
Definition bases (n : nat) (s : rootsys) (x : invdata) : Prop :=
  StronglySorted lt (i_simag x) /\ StronglySorted lt (i_sreal x) /\ simples n s (i_imag x) (i_simag x) /\ simples n s (i_real x) (i_sreal x).
Lemma classes_sorted fits r n A B p d g P x : datum_of fits r n A B p d -> moves (d_sys d) (weight d) (image_by r g) (i_perm x) -> classes (d_sys d) P x -> sorted_by r g d P x.
Proof.
  intros K M (_ & X1 & X2 & X3). apply datum_of_ok in K. assert (Lm : forall a, (a < num_roots (d_sys d))%nat -> (num_roots (d_sys d) - 1 - a < num_roots (d_sys d))%nat) by (intros; lia).
  split; [|split]; intros a; [rewrite X1|rewrite X2|rewrite X3]; split; intros (Ha & Pa & Q); (split; [exact Ha|]; split; [exact Pa|]).
  - apply (weight_perm r n A B p d K g _ a a M Ha Ha). exact Q.
  - apply (weight_perm r n A B p d K g _ a a M Ha Ha). exact Q.
  - rewrite <- (weight_minus r n A B p d K a Ha). apply (weight_perm r n A B p d K g _ a _ M Ha (Lm a Ha)). exact Q.
  - rewrite <- (weight_minus r n A B p d K a Ha) in Q. apply (weight_perm r n A B p d K g _ a _ M Ha (Lm a Ha)). exact Q.
  - rewrite <- (weight_minus r n A B p d K a Ha). rewrite <- (weight_perm r n A B p d K g _ a _ M Ha (Lm a Ha)), <- (weight_perm r n A B p d K g _ a a M Ha Ha). exact Q.
  - rewrite <- (weight_minus r n A B p d K a Ha) in Q. rewrite <- (weight_perm r n A B p d K g _ a _ M Ha (Lm a Ha)), <- (weight_perm r n A B p d K g _ a a M Ha Ha) in Q. exact Q.
Qed.
(** an automorphism of a root datum *)
Theorem C147_matrix (fits : Z -> bool) (r n : nat) (A B : nat -> nat -> Z) (p : predatum) (d : datum) (q : matrix Z) (g : nat -> nat -> Z) : datum_of fits r n A B p d ->
  is_mx q r r g -> automorphism r n A B g ->
  gives (inv_of_matrix fits d q) (fun x => moves (d_sys d) (weight d) (image_by r g) (i_perm x) /\ classes (d_sys d) (fun _ => True) x /\ sorted_by r g d (fun _ => True) x /\ bases n (d_sys d) x) (overflows fits).
Proof.
  intros D0 Hq Aq. pose proof (datum_of_ok _ _ _ _ _ _ _ D0) as K. unfold inv_of_matrix. eapply gives_bind; [apply (perm_run fits r n A B p d K q g Hq Aq)|]. intros l ([h M1] & M2).
  destruct (k_sys _ _ _ _ _ _ K) as [c bt]. destruct (classify_ok n _ c _ (d_sys d) bt h l M1) as (x & -> & E & Cx & S1 & S2 & Q1 & Q2). cbn [gives]. rewrite E. split; [exact M2|]. split; [exact Cx|].
  split; [apply (classes_sorted fits r n A B p d g _ x D0); [rewrite E; exact M2|exact Cx]|]. split; [exact S1|]. split; [exact S2|]. split; [exact Q1|exact Q2].
Qed.
(** the same among the roots of a set of positive roots, and their negatives *)
Theorem C147_subsystem (fits : Z -> bool) (r n : nat) (A B : nat -> nat -> Z) (p : predatum) (d : datum) (q : matrix Z) (g : nat -> nat -> Z) (sub : bset) : datum_of fits r n A B p d ->
  is_mx q r r g -> automorphism r n A B g -> length sub = num_roots (d_sys d) -> closed (d_sys d) (plus_minus (d_sys d) sub) ->
  gives (inv_of_subsystem fits d q sub) (fun x => moves (d_sys d) (weight d) (image_by r g) (i_perm x) /\ classes (d_sys d) (plus_minus (d_sys d) sub) x /\
    sorted_by r g d (plus_minus (d_sys d) sub) x /\ bases n (d_sys d) x) (overflows fits).
Proof.
  intros D0 Hq Aq Ls Cl. pose proof (datum_of_ok _ _ _ _ _ _ _ D0) as K. unfold inv_of_subsystem. eapply gives_bind; [apply (perm_run fits r n A B p d K q g Hq Aq)|]. intros l ([h M1] & M2).
  destruct (k_sys _ _ _ _ _ _ K) as [c bt]. destruct (sub_ok n _ c _ (d_sys d) bt h l sub M1 Ls Cl) as (im & re & cx & si & sr & E1 & E2 & E3 & S1 & S2 & Cx & Q1 & Q2). cbv zeta in *. rewrite E1. cbn [bind]. rewrite E2. cbn [bind]. rewrite E3. cbn [bind gives].
  cbn [i_perm]. split; [exact M2|]. split; [exact Cx|]. split; [apply (classes_sorted fits r n A B p d g _ _ D0); [exact M2|exact Cx]|]. split; [exact S1|]. split; [exact S2|]. split; [exact Q1|exact Q2].
Qed.
(** an involution gives a permutation of order at most 2 *)
Theorem C147_involutive (fits : Z -> bool) (r n : nat) (A B : nat -> nat -> Z) (p : predatum) (d : datum) (q : matrix Z) (g : nat -> nat -> Z) : datum_of fits r n A B p d ->
  is_mx q r r g -> automorphism r n A B g -> involutive r g ->
  gives (inv_of_matrix fits d q) (fun x => forall a b, get (i_perm x) a = Some b -> get (i_perm x) b = Some a) (overflows fits).
Proof.
  intros D0 Hq Aq Iq. eapply gives_mono; [apply (C147_matrix fits r n A B p d q g D0 Hq Aq)|]. intros x (M & _) a b G. pose proof (datum_of_ok _ _ _ _ _ _ _ D0) as K.
  assert (Ha : (a < num_roots (d_sys d))%nat) by (rewrite <- (proj1 M); apply (VecProofs.get_lt _ _ _ G)). destruct (proj2 M a Ha) as (b' & G' & Hb & _). rewrite G in G'. injection G' as <-.
  apply (weight_perm r n A B p d K g _ b a M Hb Ha). apply (weight_perm r n A B p d K g _ a b M Ha Hb) in G. rewrite <- G. apply Iq. rewrite (weight_eq r n A B p d K a Ha). apply comb_length.
Qed.
(** given the numbers of the images of the simple roots *)
Theorem C147_images (n : nat) (f : nat -> nat -> Z) (c : matrix Z) (pc : bool) (s : rootsys) (im : list nat) : built n f c pc s ->
  length im = n -> (forall i, (i < n)%nat -> (nth i im 0 < num_roots s)%nat) ->
  (forall i j, (i < n)%nat -> (j < n)%nat -> value n f (root_at s (nth i im 0%nat)) (coroot_at s (nth j im 0%nat)) = f i j) ->
  exists x, inv_of_images s im = Ok x /\ moves s (root_at s) (linear n (fun i => root_at s (nth i im 0%nat))) (i_perm x) /\ classes s (fun _ => True) x /\ bases n s x.
Proof.
  intros bt Li Hi Hc. unfold inv_of_images. destruct (C100_extend n f c pc s im bt Li Hi Hc) as (l & -> & M). cbn [bind].
  destruct (classify_ok n f c pc s bt (fun i => root_at s (nth i im 0%nat)) l M) as (x & E1 & E & Cx & S1 & S2 & Q1 & Q2). exists x. split; [exact E1|]. rewrite E. split; [exact M|]. split; [exact Cx|]. split; [exact S1|]. split; [exact S2|]. split; [exact Q1|exact Q2].
Qed.
(** the reflection for the first simple root of a datum with roots of type C2: 4 complex roots, 2 imaginary ones and 2 real ones *)
Lemma refl0_mx : is_mx refl0 3 3 (ent 3 (mdata refl0)). Proof. is_matrix 3%nat 3%nat. Qed.
Lemma refl0_auto : automorphism 3 2 gA gB (ent 3 (mdata refl0)).
Proof.
  intros i Hi. pose proof (k_at _ _ _ _ _ _ (datum_of_ok _ _ _ _ _ _ _ (proj1 datum_gsp))) as Q. exists (nth i [[-1; 0]; [2; 1]] []), (nth i [[-1; 0]; [1; 1]] []).
  assert (E1 : (root_at (d_sys D) 3 = [-1; 0] /\ coroot_at (d_sys D) 3 = [-1; 0]) /\ (root_at (d_sys D) 7 = [2; 1] /\ coroot_at (d_sys D) 7 = [1; 1])) by (vm_compute; auto). destruct E1 as ((E1 & E2) & E3 & E4).
  split; [cases i 2%nat; cbn [nth]; [rewrite <- E1 at 1; rewrite <- E2; apply Q; vm_compute; lia|rewrite <- E3, <- E4; apply Q; vm_compute; lia]|].
  cases i 2%nat; (split; [vm_compute; reflexivity|]; intros v Lv; list_of v 3%nat; cbn -[Z.mul Z.add]; ring).
Qed.
Lemma refl0_inv : involutive 3 (ent 3 (mdata refl0)).
Proof. intros v Lv. list_of v 3%nat. cbn -[Z.mul Z.add]. do 2 (f_equal; [ring|]). f_equal. ring. Qed.
Definition sub46 : bset := map (fun a => existsb (Nat.eqb a) [4; 6]%nat) (seq 0 8).
Definition inv0 : invdata := mk_inv [2; 1; 0; 4; 3; 7; 6; 5]%nat [false; true; false; false; false; false; true; false] [false; false; false; true; true; false; false; false] [true; false; true; false; false; true; false; true] [6]%nat [4]%nat.
Example C147_ex : datum_of i32 3 2 gA gB gsp D /\ is_mx refl0 3 3 (ent 3 (mdata refl0)) /\ automorphism 3 2 gA gB (ent 3 (mdata refl0)) /\ involutive 3 (ent 3 (mdata refl0)) /\
  length sub46 = num_roots (d_sys D) /\ closed (d_sys D) (plus_minus (d_sys D) sub46) /\
  (forall i j, (i < 2)%nat -> (j < 2)%nat -> value 2 (fun i j => dot 3 (fcol 3 gA i) (fcol 3 gB j)) (root_at (d_sys D) (nth i [3; 7]%nat 0%nat)) (coroot_at (d_sys D) (nth j [3; 7]%nat 0%nat)) = dot 3 (fcol 3 gA i) (fcol 3 gB j)) /\
  inv_of_matrix i32 D refl0 = Ok inv0 /\ inv_of_images (d_sys D) [3; 7]%nat = Ok inv0 /\
  inv_of_subsystem i32 D refl0 sub46 = Ok (mk_inv (i_perm inv0) (i_imag inv0) (i_real inv0) (repeat false 8) [6]%nat [4]%nat).
Proof.
  split; [apply datum_gsp|]. split; [apply refl0_mx|]. split; [apply refl0_auto|]. split; [apply refl0_inv|]. split; [reflexivity|]. split.
  { intros a b d (Ha & Qa) (Hb & Qb) R. change (num_roots (d_sys D)) with 8%nat in *.
    do 8 (destruct a as [|a]; [do 8 (destruct b as [|b]; [vm_compute in R, Qa, Qb; injection R as <-; vm_compute; (split; [lia|]); tauto || (destruct Qa; discriminate) || (destruct Qb; discriminate)|]); lia|]). lia. }
  split; [intros i j Hi Hj; cases i 2%nat; cases j 2%nat; vm_compute; reflexivity|]. split; [vm_compute; reflexivity|]. split; vm_compute; reflexivity.
Qed.

(** * C148: conjugation by a simple reflection *)
(** the permutation is conjugated and the classes are those of the conjugate; the lists have the simple members if the simple
    root is complex, as it is when the conjugate is another involution *)
Theorem C148_cross (n : nat) (f : nat -> nat -> Z) (c : matrix Z) (pc : bool) (s : rootsys) (i : nat) (P : nat -> Prop) (x : invdata) : built n f c pc s -> (i < n)%nat ->
  length (i_perm x) = num_roots s -> (forall a b, get (i_perm x) a = Some b -> (b < num_roots s)%nat) -> classes s P x -> simples n s (i_imag x) (i_simag x) -> simples n s (i_real x) (i_sreal x) ->
  exists y, cross_simple s i x = Ok y /\ length (i_perm y) = num_roots s /\
    (forall a a' b b', simple_reflected s i a = Ok a' -> (a < num_roots s)%nat -> get (i_perm x) a' = Some b -> simple_reflected s i b = Ok b' -> get (i_perm y) a = Some b') /\
    classes s (fun a => exists a', simple_reflected s i a = Ok a' /\ P a') y /\
    (bmem (i_imag x) (num_pos s + i) = false -> bmem (i_imag x) (num_pos s - 1 - i) = false -> simples n s (i_imag y) (i_simag y)) /\
    (bmem (i_real x) (num_pos s + i) = false -> bmem (i_real x) (num_pos s - 1 - i) = false -> simples n s (i_real y) (i_sreal y)).
Proof.
  intros bt Hi Lp Hp Cx Si Sr. destruct (refl_list n f c pc s bt i Hi) as (r & Er & Lr & Hr). unfold cross_simple. rewrite Er. cbn [bind].
  destruct (cross_ok n f c pc s bt i Hi r Lr Hr P x Lp Hp Cx Si Sr) as (y & Ey & Ly & Q & (CL & C1 & C2 & C3) & _ & _ & S1 & S2). exists y. split; [exact Ey|]. split; [exact Ly|].
  assert (R : forall a, (a < num_roots s)%nat -> simple_reflected s i a = Ok (sgt s i a)) by (intros a Ha; apply (rho_ok n f c pc s bt i Hi a Ha)).
  split. { intros a a' b b' E1 Ha G E2. rewrite (R a Ha) in E1. injection E1 as <-. rewrite (R b (Hp _ _ G)) in E2. injection E2 as <-. apply Q; assumption. }
  assert (X : forall a, (a < num_roots s)%nat -> (P (sgt s i a) <-> exists a', simple_reflected s i a = Ok a' /\ P a')).
  { intros a Ha. rewrite (R a Ha). split; [intros Pa; exists (sgt s i a); auto|]. intros (a' & J & Pa). injection J as <-. exact Pa. }
  split; [|split; [exact S1|exact S2]]. split; [exact CL|]. split; [|split]; intros a; [rewrite C1|rewrite C2|rewrite C3]; (split; intros (Ha & Pa & J); split; [exact Ha| |exact Ha|]; (split; [apply X; assumption|exact J])).
Qed.
(** otherwise the list has a negative root *)
Theorem C148_negative (n : nat) (f : nat -> nat -> Z) (c : matrix Z) (pc : bool) (s : rootsys) (i : nat) (P : nat -> Prop) (x : invdata) : built n f c pc s -> (i < n)%nat ->
  length (i_perm x) = num_roots s -> (forall a b, get (i_perm x) a = Some b -> (b < num_roots s)%nat) -> classes s P x -> simples n s (i_imag x) (i_simag x) -> simples n s (i_real x) (i_sreal x) ->
  exists y, cross_simple s i x = Ok y /\ (bmem (i_imag x) (num_pos s + i) = true -> In (num_pos s - 1 - i)%nat (i_simag y)) /\ (bmem (i_real x) (num_pos s + i) = true -> In (num_pos s - 1 - i)%nat (i_sreal y)).
Proof.
  intros bt Hi Lp Hp Cx Si Sr. destruct (refl_list n f c pc s bt i Hi) as (r & Er & Lr & Hr). unfold cross_simple. rewrite Er. cbn [bind].
  destruct (cross_ok n f c pc s bt i Hi r Lr Hr P x Lp Hp Cx Si Sr) as (y & Ey & _ & _ & _ & E1 & E2 & _). exists y. split; [exact Ey|]. destruct Cx as ((L1 & L2 & _) & _). destruct bt as (n32 & ft & mc & made) eqn:Eb.
  rewrite <- (sgt_simple n f c pc s n32 ft mc made i Hi), E1, E2. split; intros M; apply in_map; [apply (simple_member n f c pc s bt i Hi r Lr (i_imag x))|apply (simple_member n f c pc s bt i Hi r Lr (i_real x))]; assumption.
Qed.
Definition inv1 : invdata := mk_inv [5; 6; 7; 3; 4; 0; 1; 2]%nat [false; false; false; true; true; false; false; false] [false; true; false; false; false; false; true; false] [true; false; true; false; false; true; false; true] [4]%nat [6]%nat.
(** the reflection for the first simple root conjugated by the reflection for the second; and by itself, when the basis of the
    real roots becomes negative *)
Example C148_ex : (exists c, built 2 (fun i j => dot 3 (fcol 3 gA i) (fcol 3 gB j)) c (p_prefer gsp) (d_sys D)) /\ length (i_perm inv0) = num_roots (d_sys D) /\
  (forall a b, get (i_perm inv0) a = Some b -> (b < num_roots (d_sys D))%nat) /\ classes (d_sys D) (fun _ => True) inv0 /\ simples 2 (d_sys D) (i_imag inv0) (i_simag inv0) /\ simples 2 (d_sys D) (i_real inv0) (i_sreal inv0) /\
  cross_simple (d_sys D) 1 inv0 = Ok inv1 /\ bmem (i_imag inv0) (num_pos (d_sys D) + 1) = false /\ bmem (i_real inv0) (num_pos (d_sys D) - 1 - 1) = false /\
  bmem (i_real inv0) (num_pos (d_sys D) + 0) = true /\ cross_simple (d_sys D) 0 inv0 = Ok (mk_inv (i_perm inv0) (i_imag inv0) (i_real inv0) (i_complex inv0) [6]%nat [3]%nat).
Proof.
  split; [exact (k_sys _ _ _ _ _ _ (datum_of_ok _ _ _ _ _ _ _ (proj1 datum_gsp)))|]. split; [reflexivity|].
  destruct C147_ex as (D0 & Hq & Aq & _ & _ & _ & _ & E & _). pose proof (C147_matrix i32 3 2 gA gB gsp D refl0 _ D0 Hq Aq) as T. rewrite E in T. cbn [gives] in T. destruct T as (M & Cx & _ & _ & _ & S1 & S2).
  split. { intros a b G. assert (Ha : (a < num_roots (d_sys D))%nat) by (rewrite <- (proj1 M); apply (VecProofs.get_lt _ _ _ G)). destruct (proj2 M a Ha) as (b' & G' & Hb & _). rewrite G in G'. injection G' as <-. exact Hb. }
  split; [exact Cx|]. split; [exact S1|]. split; [exact S2|]. split; [vm_compute; reflexivity|]. split; [reflexivity|]. split; [reflexivity|]. split; [reflexivity|]. vm_compute; reflexivity.
Qed.
Print Assumptions C147_matrix.
Print Assumptions C147_subsystem.
Print Assumptions C147_involutive.
Print Assumptions C147_images.
Print Assumptions C148_cross.
Print Assumptions C148_negative.
