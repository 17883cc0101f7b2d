(** C104-C109: root data, their reflections and Weyl group actions. *)

From Coq Require Import List Arith ZArith Bool Lia.
From Verif Require Import VecModel RunModel RunProofs MatModel MatSpec MatRing MatProofs SizeModel LatModel
  LieTypeModel LieTypeSpec DynkinModel DynProps RootModel RootSpec RootSys RootAcc RootMath RootUniq RootTop RootProps DatModel DatSpec DatMath DatProofs DatOps DatFactor DatMats.
Import ListNotations.
Local Open Scope Z_scope.

(** the pairings of the simple roots (columns of A) and the simple coroots (columns of B) *)
Definition pairings (r : nat) (A B : nat -> nat -> Z) (i j : nat) : Z := dot r (fcol r A i) (fcol r B j).
(** [p] describes [n] simple roots and coroots of finite type in Z^r *)
Definition based (r n : nat) (A B : nat -> nat -> Z) (p : predatum) : Prop :=
  is_mx (p_roots p) r n A /\ is_mx (p_coroots p) r n B /\ (n <= 32)%nat /\ finite_type n (pairings r A B).
(** and [d] is constructed from it *)
Definition datum_of (fits : Z -> bool) (r n : nat) (A B : nat -> nat -> Z) (p : predatum) (d : datum) : Prop :=
  based r n A B p /\ root_datum fits p = Ok d.
Notation word n := (Forall (fun i => (i < n)%nat)).

Lemma datum_of_ok fits r n A B p d : datum_of fits r n A B p d -> datum_ok r n A B p d.
Proof.
  intros ((HA & HB & L & F) & E). pose proof (root_datum_ok fits r n A B p HA HB L F) as G. rewrite E in G. exact G.
Qed.

(** the similitude group of rank 3 with derived group Sp(4), and values of type int and long long *)
Definition i32 (z : Z) : bool := (-2147483648 <=? z) && (z <? 2147483648).
Definition i64 (z : Z) : bool := (-9223372036854775808 <=? z) && (z <? 9223372036854775808).
Definition gsp : predatum := mk_pre (mk_mat 3 2 [1; 0; -1; 2; 0; -1]) (mk_mat 3 2 [1; 0; -1; 1; 0; 0]) false.
Definition gA : nat -> nat -> Z := ent 2 (mdata (p_roots gsp)).
Definition gB : nat -> nat -> Z := ent 2 (mdata (p_coroots gsp)).
Definition the (q : res datum) : datum := match q with Ok d => d | Fail _ => mk_datum G 0 [] [] [] [] end.
Definition D : datum := Eval vm_compute in the (root_datum i32 gsp).
Lemma based_gsp : based 3 2 gA gB gsp.
Proof.
  assert (H : is_mx (mk_mat 2 2 [2; -1; -2; 2]) 2 2 (pairings 3 gA gB)).
  { split; [reflexivity|]. split; [reflexivity|]. split; [reflexivity|]. intros i j Hi Hj. do 2 (destruct i as [|i]; [do 2 (destruct j as [|j]; [reflexivity|]); lia|]). lia. }
  split; [|split; [|split; [lia|]]].
  - split; [reflexivity|]. split; [reflexivity|]. split; [reflexivity|]. intros i j Hi Hj. do 3 (destruct i as [|i]; [do 2 (destruct j as [|j]; [reflexivity|]); lia|]). lia.
  - split; [reflexivity|]. split; [reflexivity|]. split; [reflexivity|]. intros i j Hi Hj. do 3 (destruct i as [|i]; [do 2 (destruct j as [|j]; [reflexivity|]); lia|]). lia.
  - eapply type_finite; [lia|exact H|vm_compute; reflexivity].
Qed.
Lemma datum_gsp : datum_of i32 3 2 gA gB gsp D /\ datum_of i64 3 2 gA gB gsp D.
Proof. split; (split; [exact based_gsp|vm_compute; reflexivity]). Qed.

(** * C104: the constructor *)
(** the Cartan matrix is that of the pairings *)
Theorem C104_Cartan (fits : Z -> bool) (r n : nat) (A B : nat -> nat -> Z) (p : predatum) : is_mx (p_roots p) r n A -> is_mx (p_coroots p) r n B ->
  gives (p_Cartan fits p) (fun c => is_mx c n n (pairings r A B)) (overflows fits).
Proof. intros HA HB. exact (p_Cartan_ok fits r n A B p HA HB). Qed.
(** the constructor succeeds unless a value does not fit.  The root system is that of the Cartan matrix; the root and
    coroot with number a are the combinations of the simple ones with coefficients those in the root system *)
Theorem C104_constructor (fits : Z -> bool) (r n : nat) (A B : nat -> nat -> Z) (p : predatum) : based r n A B p ->
  gives (root_datum fits p) (fun d => d_rank d = r /\ (exists c, built n (pairings r A B) c (p_prefer p) (d_sys d)) /\
    length (d_roots d) = num_roots (d_sys d) /\ length (d_coroots d) = num_roots (d_sys d) /\
    (forall a e, (a < num_roots (d_sys d))%nat -> root_any (d_sys d) a = Ok e -> d_root d a = Ok (comb r n (fcol r A) e)) /\
    (forall a e, (a < num_roots (d_sys d))%nat -> coroot_any (d_sys d) a = Ok e -> d_coroot d a = Ok (comb r n (fcol r B) e)) /\
    (forall i, (i < n)%nat -> d_root d (d_simple d i) = Ok (fcol r A i) /\ d_coroot d (d_simple d i) = Ok (fcol r B i))) (overflows fits).
Proof.
  intros (HA & HB & L & F). eapply gives_mono; [apply (root_datum_ok fits r n A B p HA HB L F)|]. intros d K.
  split; [apply K|]. split; [apply K|]. split; [apply K|]. split; [apply K|]. split; [|split].
  - intros a e Ha He. rewrite (proj1 (d_root_run r n A B p d K a Ha)). unfold root_at. rewrite He. reflexivity.
  - intros a e Ha He. rewrite (proj2 (d_root_run r n A B p d K a Ha)). unfold coroot_at. rewrite He. reflexivity.
  - apply (d_simple_run r n A B p d K).
Qed.
(** every root pairs to 2 with its coroot *)
Theorem C104_pairing (fits : Z -> bool) (r n : nat) (A B : nat -> nat -> Z) (p : predatum) (d : datum) (a : nat) (x y : list Z) : datum_of fits r n A B p d ->
  (a < num_roots (d_sys d))%nat -> d_root d a = Ok x -> d_coroot d a = Ok y -> dot r x y = 2.
Proof.
  intros K Ha Hx Hy. apply datum_of_ok in K. destruct (d_root_run r n A B p d K a Ha) as [E1 E2]. rewrite Hx in E1. rewrite Hy in E2. injection E1 as ->. injection E2 as ->.
  apply (pairing_2 r n A B p d K a Ha).
Qed.
(** twice rho is the sum of the positive roots, and pairs to 2 with every simple coroot; dually for the coroots *)
Theorem C104_rho (fits : Z -> bool) (r n : nat) (A B : nat -> nat -> Z) (p : predatum) (d : datum) : datum_of fits r n A B p d ->
  d_2rho d = vsum r (map (fun a => comb r n (fcol r A) (root_at (d_sys d) a)) (seq (num_pos (d_sys d)) (num_pos (d_sys d)))) /\
  d_dual_2rho d = vsum r (map (fun a => comb r n (fcol r B) (coroot_at (d_sys d) a)) (seq (num_pos (d_sys d)) (num_pos (d_sys d)))) /\
  (forall i, (i < n)%nat -> dot r (d_2rho d) (fcol r B i) = 2) /\ (forall i, (i < n)%nat -> dot r (fcol r A i) (d_dual_2rho d) = 2).
Proof. intros K. apply datum_of_ok in K. split; [apply K|]. split; [apply K|]. apply (rho_ok r n A B p d K). Qed.
Example C104_ex : based 3 2 gA gB gsp /\ p_Cartan i32 gsp = Ok (mk_mat 2 2 [2; -1; -2; 2]) /\ datum_of i32 3 2 gA gB gsp D /\
  d_roots D = [[-2; 0; 1]; [-1; -1; 1]; [0; -2; 1]; [-1; 1; 0]; [1; -1; 0]; [0; 2; -1]; [1; 1; -1]; [2; 0; -1]] /\
  d_coroots D = [[-1; 0; 0]; [-1; -1; 0]; [0; -1; 0]; [-1; 1; 0]; [1; -1; 0]; [0; 1; 0]; [1; 1; 0]; [1; 0; 0]] /\
  d_2rho D = [4; 2; -3] /\ d_dual_2rho D = [3; 1; 0].
Proof. split; [apply based_gsp|]. split; [vm_compute; reflexivity|]. split; [apply datum_gsp|]. vm_compute. auto. Qed.

(** * C105: reflections *)
(** reflection of a vector subtracts the root (coroot), multiplied by the pairing with the coroot (root) plus the offset *)
Theorem C105_reflect (fits : Z -> bool) (r n : nat) (A B : nat -> nat -> Z) (p : predatum) (d : datum) (a : nat) (x y v : list Z) (off : Z) : datum_of fits r n A B p d ->
  (a < num_roots (d_sys d))%nat -> d_root d a = Ok x -> d_coroot d a = Ok y -> length v = r ->
  gives (d_reflect fits d a v off) (eq (away r v (dot r v y + off) x)) (overflows fits) /\
  gives (d_coreflect fits d v a off) (eq (away r v (dot r x v + off) y)) (overflows fits).
Proof.
  intros K Ha Hx Hy L. apply datum_of_ok in K. destruct (d_root_run r n A B p d K a Ha) as [E1 E2]. rewrite Hx in E1. rewrite Hy in E2. injection E1 as ->. injection E2 as ->.
  apply (reflect_run fits r n A B p d K a v off Ha L).
Qed.
Theorem C105_simple_reflect (fits : Z -> bool) (r n : nat) (A B : nat -> nat -> Z) (p : predatum) (i : nat) (v : list Z) :
  is_mx (p_roots p) r n A -> is_mx (p_coroots p) r n B -> (i < n)%nat -> length v = r ->
  gives (p_reflect fits p i v) (eq (reflect_at r (fcol r A i) (fcol r B i) v)) (overflows fits).
Proof. intros HA HB Hi L. apply (p_reflect_run fits r n A B p HA HB i v Hi L). Qed.
(** multiplication of a matrix by a reflection, on either side *)
Theorem C105_matrices (fits : Z -> bool) (r n : nat) (A B : nat -> nat -> Z) (p : predatum) (d : datum) (a : nat) (x y : list Z) : datum_of fits r n A B p d ->
  (a < num_roots (d_sys d))%nat -> d_root d a = Ok x -> d_coroot d a = Ok y ->
  (forall M m g, is_mx M r m g -> gives (d_reflect_left fits d a M) (fun N => is_mx N r m (fmul r (rmatrix x y) g)) (overflows fits)) /\
  (forall M m g, is_mx M m r g -> gives (d_reflect_right fits d M a) (fun N => is_mx N m r (fmul r g (rmatrix x y))) (overflows fits)) /\
  gives (root_reflection fits d a) (fun M => is_mx M r r (rmatrix x y)) (overflows fits).
Proof.
  intros K Ha Hx Hy. apply datum_of_ok in K. destruct (d_root_run r n A B p d K a Ha) as [E1 E2]. rewrite Hx in E1. rewrite Hy in E2. injection E1 as ->. injection E2 as ->.
  split; [|split].
  - intros M m g. apply (d_left_run fits r n A B p d K a M m g Ha).
  - intros M m g. apply (d_right_run fits r n A B p d K a M m g Ha).
  - apply (root_reflection_run fits r n A B p d K a Ha).
Qed.
Theorem C105_pre_matrices (fits : Z -> bool) (r n : nat) (A B : nat -> nat -> Z) (p : predatum) (i : nat) :
  is_mx (p_roots p) r n A -> is_mx (p_coroots p) r n B -> (i < n)%nat ->
  (forall M m g, is_mx M r m g -> gives (p_reflect_left fits p i M) (fun N => is_mx N r m (fmul r (rmatrix (fcol r A i) (fcol r B i)) g)) (overflows fits)) /\
  (forall M m g, is_mx M m r g -> gives (p_reflect_right fits p M i) (fun N => is_mx N m r (fmul r g (rmatrix (fcol r A i) (fcol r B i)))) (overflows fits)).
Proof.
  intros HA HB Hi. split; intros M m g.
  - apply (p_left_run fits r n A B p HA HB i M m g Hi).
  - apply (p_right_run fits r n A B p HA HB i M m g Hi).
Qed.
(** the matrix [rmatrix] is that of the reflection *)
Theorem C105_matrix (r : nat) (a b v : list Z) : length a = r -> length v = r -> comb r r (fcol r (rmatrix a b)) v = reflect_at r a b v.
Proof. apply rmatrix_apply. Qed.
Example C105_ex : datum_of i32 3 2 gA gB gsp D /\ num_roots (d_sys D) = 8%nat /\ d_root D 6 = Ok [1; 1; -1] /\ d_coroot D 6 = Ok [1; 1; 0] /\
  d_reflect i32 D 6 [5; 7; 11] 0 = Ok [-7; -5; 23] /\ d_coreflect i32 D [5; 7; 11] 6 3 = Ok [1; 3; 11] /\
  root_reflection i32 D 6 = Ok (mk_mat 3 3 [0; -1; 0;  -1; 0; 0;  1; 1; 1]) /\
  d_reflect_left i32 D 6 (mk_mat 3 1 [5; 7; 11]) = Ok (mk_mat 3 1 [-7; -5; 23]) /\ d_reflect_right i32 D (mk_mat 1 3 [5; 7; 11]) 6 = Ok (mk_mat 1 3 [4; 6; 11]).
Proof. split; [apply datum_gsp|]. vm_compute. auto 10. Qed.

(** * C106: actions of words *)
(** act lets the last letter act first, act_inverse the first; dual_act acts on coweights, letting the first act first *)
Theorem C106_act (fits : Z -> bool) (r n : nat) (A B : nat -> nat -> Z) (p : predatum) (d : datum) (ww : list nat) (v : list Z) : datum_of fits r n A B p d -> word n ww -> length v = r ->
  gives (d_act fits d ww v) (eq (act_by r (fcol r A) (fcol r B) ww v)) (overflows fits) /\
  gives (d_act_inverse fits d v ww) (eq (act_by r (fcol r A) (fcol r B) (rev ww) v)) (overflows fits) /\
  gives (d_dual_act fits d v ww) (eq (act_by r (fcol r B) (fcol r A) (rev ww) v)) (overflows fits).
Proof.
  intros K F L. apply datum_of_ok in K. split; [|split].
  - apply (act_run fits r n A B p d K ww v F L).
  - apply (act_inverse_run fits r n A B p d K ww v F L).
  - apply (dual_act_run fits r n A B p d K ww v F L).
Qed.
(** the reversed word acts as the inverse *)
Theorem C106_inverse (fits : Z -> bool) (r n : nat) (A B : nat -> nat -> Z) (p : predatum) (d : datum) (ww : list nat) (v : list Z) : datum_of fits r n A B p d -> word n ww -> length v = r ->
  gives (run x <- d_act fits d ww v; d_act_inverse fits d x ww) (eq v) (overflows fits).
Proof.
  intros K F L. pose proof (datum_of_ok _ _ _ _ _ _ _ K) as Q. eapply gives_bind; [apply (C106_act fits r n A B p d ww v K F L)|]. intros x <-.
  eapply gives_mono; [apply (act_inverse_run fits r n A B p d Q ww _ F)|].
  - apply act_length; exact L.
  - intros y <-. symmetry. apply (rev_act r n (fcol r A) (fcol r B) (fun i j => dot r (fcol r A i) (fcol r B j))); try assumption; try (intros; apply fcol_length); try reflexivity. apply (k_good r n A B p d Q).
Qed.
(** moving the action to the other side of the pairing *)
Theorem C106_adjoint (fits : Z -> bool) (r n : nat) (A B : nat -> nat -> Z) (p : predatum) (d : datum) (ww : list nat) (v w x y : list Z) : datum_of fits r n A B p d -> word n ww -> length v = r -> length w = r ->
  d_act fits d ww v = Ok x -> d_dual_act fits d w ww = Ok y -> dot r x w = dot r v y.
Proof.
  intros K F L L' Ex Ey. destruct (C106_act fits r n A B p d ww v K F L) as (Q & _ & _). destruct (C106_act fits r n A B p d ww w K F L') as (_ & _ & Q'). rewrite Ex in Q. rewrite Ey in Q'. cbn in Q, Q'. subst x y.
  apply (dot_act r n (fcol r A) (fcol r B)); try assumption; intros; apply fcol_length.
Qed.
(** the shifted action: for z with <z,b_i> = k shift_i, the vector z + k x transforms by the word *)
Theorem C106_shifted (fits : Z -> bool) (r n : nat) (A B : nat -> nat -> Z) (p : predatum) (d : datum) (ww : list nat) (v shift z : list Z) (k : Z) : datum_of fits r n A B p d -> word n ww ->
  length v = r -> length shift = n -> length z = r ->
  ((forall i, (i < n)%nat -> dot r z (fcol r B i) = k * co shift i) ->
    gives (d_shifted_act fits d ww v shift) (fun x => length x = r /\ away r z (- k) x = act_by r (fcol r A) (fcol r B) ww (away r z (- k) v)) (overflows fits)) /\
  ((forall i, (i < n)%nat -> dot r (fcol r A i) z = k * co shift i) ->
    gives (d_shifted_dual_act fits d v ww shift) (fun x => length x = r /\ away r z (- k) x = act_by r (fcol r B) (fcol r A) (rev ww) (away r z (- k) v)) (overflows fits)).
Proof.
  intros K F L Ls Lz. apply datum_of_ok in K. split; intros S.
  - apply (shifted_act_run fits r n A B p d K ww v shift z k F L Ls Lz S).
  - apply (shifted_dual_act_run fits r n A B p d K ww v shift z k F L Ls Lz S).
Qed.
(** the matrix of the action *)
Theorem C106_matrix (fits : Z -> bool) (r n : nat) (A B : nat -> nat -> Z) (p : predatum) (d : datum) (ww : list nat) : datum_of fits r n A B p d -> word n ww ->
  gives (action_matrix fits d ww) (fun M => exists g, is_mx M r r g /\ forall v, length v = r -> comb r r (fcol r g) v = act_by r (fcol r A) (fcol r B) ww v) (overflows fits).
Proof. intros K F. apply datum_of_ok in K. apply (action_matrix_run fits r n A B p d K ww F). Qed.
Example C106_ex : datum_of i32 3 2 gA gB gsp D /\ word 2 [0; 1; 0]%nat /\
  d_act i32 D [0; 1]%nat [5; 7; 11] = Ok [-7; 5; 18] /\ d_act_inverse i32 D [5; 7; 11] [0; 1]%nat = Ok [7; -5; 16] /\ d_dual_act i32 D [5; 7; 11] [0; 1]%nat = Ok [7; 6; 11] /\
  d_shifted_act i32 D [0; 1]%nat [5; 7; 11] [1; 1] = Ok [-10; 6; 19] /\ dot 3 [2; 1; 0] (fcol 3 gB 0) = 1 /\ dot 3 [2; 1; 0] (fcol 3 gB 1) = 1 /\
  action_matrix i32 D [0; 1]%nat = Ok (mk_mat 3 3 [0; -1; 0;  1; 0; 0;  0; 1; 1]).
Proof. split; [apply datum_gsp|]. split; [repeat constructor; lia|]. vm_compute. auto 10. Qed.

(** * C107: the dominant vector in an orbit *)
(** factor_dominant finds a dominant vector and a word that takes it to the vector given; no dominant vector but this
    one, and no shorter word, would do *)
Theorem C107_dominant (fits : Z -> bool) (r n : nat) (A B : nat -> nat -> Z) (p : predatum) (d : datum) (v : list Z) : datum_of fits r n A B p d -> length v = r ->
  gives (factor_dominant fits idZ d v) (fun '(w, u) => length u = r /\ dominant r n (fcol r B) u /\ word n w /\ act_by r (fcol r A) (fcol r B) w u = v /\
    forall ww x, word n ww -> length x = r -> dominant r n (fcol r B) x -> act_by r (fcol r A) (fcol r B) ww x = v -> x = u /\ (length w <= length ww)%nat) (overflows fits).
Proof.
  intros K L. apply datum_of_ok in K. eapply gives_mono; [apply (factor_dominant_ok fits r n A B p d K v L)|]. intros [w u] (Lu & Du & F & Ln & Eq). cbn [fst snd] in *.
  split; [exact Lu|]. split; [exact Du|]. split; [exact F|]. split; [exact Eq|]. intros ww x F' Lx Dx Ex.
  assert (Q : x = u) by (apply (unique_dominant r n A B p d K ww w x u); try assumption; rewrite Ex; symmetry; exact Eq). split; [exact Q|].
  subst x. pose proof (shortest r n A B p d K ww u F' Lu Du) as S. rewrite Ex in S. rewrite Ln. exact S.
Qed.
(** factor_codominant: here the word found acts by dual_act, that is, with its first letter acting first *)
Theorem C107_codominant (fits : Z -> bool) (r n : nat) (A B : nat -> nat -> Z) (p : predatum) (d : datum) (v : list Z) : datum_of fits r n A B p d -> length v = r ->
  gives (factor_codominant fits idZ d v) (fun '(w, u) => length u = r /\ dominant r n (fcol r A) u /\ word n w /\ act_by r (fcol r B) (fcol r A) (rev w) u = v /\
    forall ww x, word n ww -> length x = r -> dominant r n (fcol r A) x -> act_by r (fcol r B) (fcol r A) (rev ww) x = v -> x = u /\ (length w <= length ww)%nat) (overflows fits).
Proof.
  intros K L. apply datum_of_ok in K. eapply gives_mono; [apply (factor_codominant_ok fits r n A B p d K v L)|]. intros [w u] (Lu & Du & F & Ln & Eq). cbn [fst snd] in *.
  split; [exact Lu|]. split; [exact Du|]. split; [exact F|]. split; [exact Eq|]. intros ww x F' Lx Dx Ex.
  assert (Fr : forall l, word n l -> word n (rev l)) by (intros l H; apply Forall_rev; exact H).
  assert (Q : x = u) by (apply (unique_codominant r n A B p d K (rev ww) (rev w) x u); try assumption; try (apply Fr; assumption); rewrite Ex; symmetry; exact Eq). split; [exact Q|].
  subst x. pose proof (coshortest r n A B p d K (rev ww) u (Fr _ F') Lu Du) as S. rewrite Ex, rev_length in S. rewrite Ln. exact S.
Qed.
(** make_dominant and to_dominant: the vector, and a word that takes the vector given to it *)
Theorem C107_to_dominant (fits : Z -> bool) (r n : nat) (A B : nat -> nat -> Z) (p : predatum) (d : datum) (v : list Z) : datum_of fits r n A B p d -> length v = r ->
  gives (make_dominant fits idZ d v) (fun u => length u = r /\ dominant r n (fcol r B) u /\ exists ww, word n ww /\ act_by r (fcol r A) (fcol r B) ww v = u) (overflows fits) /\
  gives (to_dominant fits idZ d v) (fun w => word n w /\ dominant r n (fcol r B) (act_by r (fcol r A) (fcol r B) w v) /\
    forall ww, word n ww -> dominant r n (fcol r B) (act_by r (fcol r A) (fcol r B) ww v) -> (length w <= length ww)%nat) (overflows fits).
Proof.
  intros K L. pose proof (datum_of_ok _ _ _ _ _ _ _ K) as Q.
  assert (V : forall w u, word n w -> length u = r -> act_by r (fcol r A) (fcol r B) (rev w) (act_by r (fcol r A) (fcol r B) w u) = u).
  { intros w u F Lu. apply (rev_act r n (fcol r A) (fcol r B) (fun i j => dot r (fcol r A i) (fcol r B j))); try assumption; try (intros; apply fcol_length); try reflexivity. apply (k_good r n A B p d Q). }
  split.
  - unfold make_dominant. eapply gives_bind; [apply (C107_dominant fits r n A B p d v K L)|]. intros [w u] (Lu & Du & F & Eq & _). apply gives_ok. cbn [snd].
    split; [exact Lu|]. split; [exact Du|]. exists (rev w). split; [apply Forall_rev; exact F|]. rewrite <- Eq. apply V; assumption.
  - unfold to_dominant. eapply gives_bind; [apply (C107_dominant fits r n A B p d v K L)|]. intros [w u] (Lu & Du & F & Eq & M). apply gives_ok. cbn [fst].
    split; [apply Forall_rev; exact F|]. rewrite <- Eq at 1. rewrite V by assumption. split; [exact Du|]. intros ww F' D'. rewrite rev_length.
    assert (Lx : length (act_by r (fcol r A) (fcol r B) ww v) = r) by (apply act_length; exact L).
    destruct (M (rev ww) _ (Forall_rev F') Lx D') as [_ S]; [apply V; assumption|]. rewrite rev_length in S. exact S.
Qed.
Theorem C107_to_codominant (fits : Z -> bool) (r n : nat) (A B : nat -> nat -> Z) (p : predatum) (d : datum) (v : list Z) : datum_of fits r n A B p d -> length v = r ->
  gives (make_codominant fits idZ d v) (fun u => length u = r /\ dominant r n (fcol r A) u /\ exists ww, word n ww /\ act_by r (fcol r B) (fcol r A) ww v = u) (overflows fits) /\
  gives (to_codominant fits idZ d v) (fun w => word n w /\ dominant r n (fcol r A) (act_by r (fcol r B) (fcol r A) (rev w) v) /\
    forall ww, word n ww -> dominant r n (fcol r A) (act_by r (fcol r B) (fcol r A) (rev ww) v) -> (length w <= length ww)%nat) (overflows fits).
Proof.
  intros K L. pose proof (datum_of_ok _ _ _ _ _ _ _ K) as Q.
  assert (V : forall w u, word n w -> length u = r -> act_by r (fcol r B) (fcol r A) w (act_by r (fcol r B) (fcol r A) (rev w) u) = u).
  { intros w u F Lu. apply (act_rev r n (fcol r B) (fcol r A) (fun i j => dot r (fcol r A j) (fcol r B i))); try assumption; try (intros; apply fcol_length).
    - intros i j Hi Hj. apply dot_comm.
    - apply (k_good r n A B p d Q). }
  split.
  - unfold make_codominant. eapply gives_bind; [apply (C107_codominant fits r n A B p d v K L)|]. intros [w u] (Lu & Du & F & Eq & _). apply gives_ok. cbn [snd].
    split; [exact Lu|]. split; [exact Du|]. exists w. split; [exact F|]. rewrite <- Eq. apply V; assumption.
  - unfold to_codominant. eapply gives_bind; [apply (C107_codominant fits r n A B p d v K L)|]. intros [w u] (Lu & Du & F & Eq & M). apply gives_ok. cbn [fst].
    split; [apply Forall_rev; exact F|]. rewrite rev_involutive. rewrite <- Eq at 1. rewrite V by assumption. split; [exact Du|]. intros ww F' D'. rewrite rev_length.
    assert (Lx : length (act_by r (fcol r B) (fcol r A) (rev ww) v) = r) by (apply act_length; exact L).
    destruct (M (rev ww) _ (Forall_rev F') Lx D') as [_ S]; [rewrite rev_involutive; apply V; assumption|]. rewrite rev_length in S. exact S.
Qed.
(** the code gives the pairing the type of the coordinates of the coroot: for a vector of 64-bit numbers it is reduced to
    32 bits before its sign is tested.  A dominant vector can make the loop run forever, and one that is not dominant can be returned *)
Definition narrow32 (z : Z) : Z := (z + 2147483648) mod 4294967296 - 2147483648.
Theorem C107_narrow_refuted : exists v1 v2, datum_of i64 3 2 gA gB gsp D /\ length v1 = 3%nat /\ length v2 = 3%nat /\
  dominant 3 2 (fcol 3 gB) v1 /\ factor_dominant i64 narrow32 D v1 = Fail Fuel /\
  ~ dominant 3 2 (fcol 3 gB) v2 /\ factor_dominant i64 narrow32 D v2 = Ok ([], v2).
Proof.
  exists [2147483648; 0; 0], [5; 4294967296; 0]. split; [apply datum_gsp|]. split; [reflexivity|]. split; [reflexivity|]. split; [|split; [vm_compute; reflexivity|split]].
  - intros [|[|i]] Hi; [vm_compute; discriminate|vm_compute; discriminate|lia].
  - intros H. specialize (H 0%nat ltac:(lia)). vm_compute in H. apply H. reflexivity.
  - vm_compute. reflexivity.
Qed.
Example C107_ex : datum_of i32 3 2 gA gB gsp D /\ factor_dominant i32 idZ D [-3; 5; 2] = Ok ([0; 1]%nat, [5; 3; -1]) /\
  d_act i32 D [0; 1]%nat [5; 3; -1] = Ok [-3; 5; 2] /\ to_dominant i32 idZ D [-3; 5; 2] = Ok [1; 0]%nat /\ make_dominant i32 idZ D [-3; 5; 2] = Ok [5; 3; -1] /\
  factor_codominant i32 idZ D [-3; 5; 2] = Ok ([1; 0]%nat, [5; 5; 2]) /\ d_dual_act i32 D [5; 5; 2] [1; 0]%nat = Ok [-3; 5; 2] /\ to_codominant i32 idZ D [-3; 5; 2] = Ok [0; 1]%nat.
Proof. split; [apply datum_gsp|]. vm_compute. auto 10. Qed.

(** * C109: words *)
(** the matrix of the action of a word determines, by word_of_inverse_matrix, a word for the inverse that is not longer *)
Theorem C109_inverse_matrix (fits : Z -> bool) (r n : nat) (A B : nat -> nat -> Z) (p : predatum) (d : datum) (q : matrix Z) (g : nat -> nat -> Z) (ww : list nat) : datum_of fits r n A B p d ->
  is_mx q r r g -> word n ww -> (forall v, length v = r -> comb r r (fcol r g) v = act_by r (fcol r A) (fcol r B) ww v) ->
  gives (word_of_inverse_matrix fits d q) (fun w => word n w /\ (length w <= length ww)%nat /\
    forall v, length v = r -> act_by r (fcol r A) (fcol r B) w (act_by r (fcol r A) (fcol r B) ww v) = v) (overflows fits).
Proof. intros K Hq F H. apply datum_of_ok in K. apply (word_of_inverse_matrix_ok fits r n A B p d K q g ww Hq F H). Qed.
(** reflection_word: a shortest word that acts as the reflection *)
Theorem C109_reflection_word (fits : Z -> bool) (r n : nat) (A B : nat -> nat -> Z) (p : predatum) (d : datum) (a : nat) (x y : list Z) : datum_of fits r n A B p d ->
  (a < num_roots (d_sys d))%nat -> d_root d a = Ok x -> d_coroot d a = Ok y ->
  gives (d_reflection_word fits d a) (fun w => word n w /\ (forall v, length v = r -> act_by r (fcol r A) (fcol r B) w v = reflect_at r x y v) /\
    forall ww, word n ww -> (forall v, length v = r -> act_by r (fcol r A) (fcol r B) ww v = reflect_at r x y v) -> (length w <= length ww)%nat) (overflows fits).
Proof.
  intros K Ha Hx Hy. apply datum_of_ok in K. destruct (d_root_run r n A B p d K a Ha) as [E1 E2]. rewrite Hx in E1. rewrite Hy in E2. injection E1 as ->. injection E2 as ->.
  apply (reflection_word_ok fits r n A B p d K a Ha).
Qed.
(** the stabiliser of 2 rho is trivial: two words with the same effect on it act in the same way *)
Theorem C109_rho (fits : Z -> bool) (r n : nat) (A B : nat -> nat -> Z) (p : predatum) (d : datum) (w1 w2 : list nat) (v : list Z) : datum_of fits r n A B p d -> word n w1 -> word n w2 ->
  act_by r (fcol r A) (fcol r B) w1 (d_2rho d) = act_by r (fcol r A) (fcol r B) w2 (d_2rho d) -> length v = r ->
  act_by r (fcol r A) (fcol r B) w1 v = act_by r (fcol r A) (fcol r B) w2 v.
Proof. intros K F1 F2 E L. apply datum_of_ok in K. apply (same_word r n A B p d K w1 w2 v F1 F2 E L). Qed.
Example C109_ex : datum_of i32 3 2 gA gB gsp D /\ d_root D 6 = Ok [1; 1; -1] /\ d_reflection_word i32 D 6 = Ok [1; 0; 1]%nat /\
  word_of_inverse_matrix i32 D (mk_mat 3 3 [0; -1; 0;  1; 0; 0;  0; 1; 1]) = Ok [1; 0]%nat.
Proof. split; [apply datum_gsp|]. vm_compute. auto. Qed.

Print Assumptions C104_Cartan.
Print Assumptions C104_constructor.
Print Assumptions C104_pairing.
Print Assumptions C104_rho.
Print Assumptions C105_reflect.
Print Assumptions C105_simple_reflect.
Print Assumptions C105_matrices.
Print Assumptions C105_pre_matrices.
Print Assumptions C105_matrix.
Print Assumptions C106_act.
Print Assumptions C106_inverse.
Print Assumptions C106_adjoint.
Print Assumptions C106_shifted.
Print Assumptions C106_matrix.
Print Assumptions C107_dominant.
Print Assumptions C107_codominant.
Print Assumptions C107_to_dominant.
Print Assumptions C107_to_codominant.
Print Assumptions C107_narrow_refuted.
Print Assumptions C109_inverse_matrix.
Print Assumptions C109_reflection_word.
Print Assumptions C109_rho.
