(** Arithmetic of vectors and matrices in terms of entries. *)

From Coq Require Import List Arith ZArith Lia Bool.
From Verif Require Import VecModel VecProofs PermProofs RunModel RunProofs MatModel MatSpec MatProofs.
Import ListNotations.
Open Scope nat_scope.

Lemma zarith_ok fits : arith_ok (zarith fits) Z.add Z.sub Z.mul Z.opp (overflows fits).
Proof.
  assert (C : forall z, gives (chkz fits z) (eq z) (overflows fits)).
  { intros z. unfold chkz. destruct (fits z) eqn:e; [reflexivity|]. split; [reflexivity|]. exists z. exact e. }
  split; cbn; intros; try apply C. apply Z.eqb_eq.
Qed.

Lemma index_div m n i j : i < m -> j < n -> (i * n + j) / n = i /\ (i * n + j) mod n = j.
Proof.
  intros Hi Hj. destruct (div_split (i * n + j) m n ltac:(apply mul_lt; assumption)) as (U1 & U2 & U3).
  destruct (index_inj n i j _ _ Hj U2 U3) as [E1 E2]. auto.
Qed.

Section Arith.
Context {A : Type} {E : err -> Prop} (R : arith A) (add sub mul : A -> A -> A) (opp : A -> A).
Hypothesis HR : arith_ok R add sub mul opp E.
Notation zero := (a0 R).
Notation one := (a1 R).
Notation sum := (fsum add zero).
Implicit Types (M N : matrix A) (f g h : nat -> nat -> A).

Lemma bind_add {B} x y (k : A -> res B) (Q : B -> Prop) : gives (k (add x y)) Q E -> gives (bind (aadd R x y) k) Q E.
Proof. intros H. eapply gives_bind; [apply (ok_add _ _ _ _ _ _ HR)|]. intros ? <-. exact H. Qed.
Lemma bind_sub {B} x y (k : A -> res B) (Q : B -> Prop) : gives (k (sub x y)) Q E -> gives (bind (asub R x y) k) Q E.
Proof. intros H. eapply gives_bind; [apply (ok_sub _ _ _ _ _ _ HR)|]. intros ? <-. exact H. Qed.
Lemma bind_mul {B} x y (k : A -> res B) (Q : B -> Prop) : gives (k (mul x y)) Q E -> gives (bind (amul R x y) k) Q E.
Proof. intros H. eapply gives_bind; [apply (ok_mul _ _ _ _ _ _ HR)|]. intros ? <-. exact H. Qed.
Lemma bind_opp {B} x (k : A -> res B) (Q : B -> Prop) : gives (k (opp x)) Q E -> gives (bind (aopp R x) k) Q E.
Proof. intros H. eapply gives_bind; [apply (ok_opp _ _ _ _ _ _ HR)|]. intros ? <-. exact H. Qed.
Lemma gives_add x y (Q : A -> Prop) : Q (add x y) -> gives (aadd R x y) Q E.
Proof. intros H. eapply gives_mono; [apply (ok_add _ _ _ _ _ _ HR)|]. intros ? <-. exact H. Qed.

Lemma vmap_ok op (fn : A -> A) v n x : (forall a, gives (op a) (eq (fn a)) E) -> is_vec v n x ->
  gives (vmap op v) (fun w => is_vec w n (fun i => fn (x i))) E.
Proof.
  intros Hop. revert n x. induction v as [|a v IH]; intros n x [L G]; cbn in L; subst n.
  - cbn. split; [reflexivity|]. intros; lia.
  - cbn [vmap]. eapply gives_bind; [apply Hop|]. intros c <-.
    eapply gives_bind; [apply (IH (length v) (fun i => x (S i)))|].
    + split; [reflexivity|]. intros i Hi. exact (G (S i) ltac:(cbn; lia)).
    + intros r [Lr Gr]. apply gives_ok. split; [cbn; lia|]. intros [|i] Hi.
      * cbn. specialize (G 0 ltac:(cbn; lia)). cbn in G. congruence.
      * exact (Gr i ltac:(cbn in Hi; lia)).
Qed.
Lemma vmap2_ok op (fn : A -> A -> A) v w n x y : (forall a b, gives (op a b) (eq (fn a b)) E) -> is_vec v n x -> is_vec w n y ->
  gives (vmap2 op v w) (fun w => is_vec w n (fun i => fn (x i) (y i))) E.
Proof.
  intros Hop. revert w n x y. induction v as [|a v IH]; intros w n x y [L G] [L' G']; cbn in L; subst n.
  - cbn. split; [reflexivity|]. intros; lia.
  - destruct w as [|b w]; [discriminate|]. cbn [vmap2]. eapply gives_bind; [apply Hop|]. intros c <-.
    eapply gives_bind; [apply (IH w (length v) (fun i => x (S i)) (fun i => y (S i)))|].
    + split; [reflexivity|]. intros i Hi. exact (G (S i) ltac:(cbn; lia)).
    + split; [cbn in L'; lia|]. intros i Hi. exact (G' (S i) ltac:(cbn; lia)).
    + intros r [Lr Gr]. apply gives_ok. split; [cbn; lia|]. intros [|i] Hi.
      * cbn. specialize (G 0 ltac:(cbn; lia)). specialize (G' 0 ltac:(cbn; lia)). cbn in G, G'. congruence.
      * exact (Gr i ltac:(cbn in Hi; lia)).
Qed.
Lemma vec_add_ok v w n x y : is_vec v n x -> is_vec w n y -> gives (vec_add R v w) (fun u => is_vec u n (fun i => add (x i) (y i))) E.
Proof. apply (vmap2_ok (aadd R) add). apply (ok_add _ _ _ _ _ _ HR). Qed.
Lemma vec_sub_ok v w n x y : is_vec v n x -> is_vec w n y -> gives (vec_sub R v w) (fun u => is_vec u n (fun i => sub (x i) (y i))) E.
Proof. apply (vmap2_ok (asub R) sub). apply (ok_sub _ _ _ _ _ _ HR). Qed.
Lemma vec_negate_add_ok v w n x y : is_vec v n x -> is_vec w n y -> gives (vec_negate_add R v w) (fun u => is_vec u n (fun i => sub (y i) (x i))) E.
Proof. apply (vmap2_ok (fun a b => asub R b a) (fun a b => sub b a)). intros. apply (ok_sub _ _ _ _ _ _ HR). Qed.
Lemma vec_scale_ok v c n x : is_vec v n x -> gives (vec_scale R v c) (fun u => is_vec u n (fun i => mul (x i) c)) E.
Proof. apply (vmap_ok (fun a => amul R a c) (fun a => mul a c)). intros. apply (ok_mul _ _ _ _ _ _ HR). Qed.
Lemma vec_negate_ok v n x : is_vec v n x -> gives (vec_negate R v) (fun u => is_vec u n (fun i => opp (x i))) E.
Proof. apply (vmap_ok (aopp R) opp). apply (ok_opp _ _ _ _ _ _ HR). Qed.
Lemma sum_loop n x (body : nat -> A -> res A) :
  (forall i c, i < n -> gives (body i c) (eq (add c (x i))) E) ->
  gives (upto n 0 body zero) (eq (sum n x)) E.
Proof.
  intros H. apply (gives_upto0 (fun t c => sum t x = c)).
  - reflexivity.
  - intros i c Hi <-. eapply gives_mono; [apply H; exact Hi|]. intros ? <-. reflexivity.
  - auto.
Qed.
Lemma vec_dot_ok v w n x y : is_vec v n x -> is_vec w n y -> gives (vec_dot R v w) (eq (sum n (fun i => mul (x i) (y i)))) E.
Proof.
  intros Hv Hw. unfold vec_dot. rewrite (proj1 Hv). apply sum_loop. intros i c Hi.
  eapply bind_vget; [exact Hv|exact Hi|]. eapply bind_vget; [exact Hw|exact Hi|].
  apply bind_mul. apply gives_add. reflexivity.
Qed.
Lemma vec_is_zero_ok v n x : is_vec v n x -> vec_is_zero R v = true <-> forall i, i < n -> x i = zero.
Proof.
  intros [L G]. unfold vec_is_zero. rewrite forallb_forall. split.
  - intros H i Hi. apply (ok_eqb _ _ _ _ _ _ HR). apply H. eapply get_In. apply G. exact Hi.
  - intros H y Hy. apply (ok_eqb _ _ _ _ _ _ HR). destruct (In_get _ _ Hy) as [i Gi].
    pose proof (get_lt _ _ _ Gi). rewrite G in Gi by lia. injection Gi as <-. apply H. lia.
Qed.
Lemma mat_is_zero_ok M m n f : is_mx M m n f -> mat_is_zero R M = true <-> feq m n f (fun _ _ => zero).
Proof.
  intros H. pose proof H as H'. apply is_mx_data in H'. destruct H' as (_ & _ & Hv). unfold mat_is_zero.
  rewrite (vec_is_zero_ok _ _ _ Hv). split.
  - intros Z i j Hi Hj. specialize (Z (i * n + j) (mul_lt i j m n Hi Hj)).
    destruct (index_div m n i j Hi Hj) as [E1 E2]. rewrite E1, E2 in Z. exact Z.
  - intros Z p Hp. destruct (div_split p m n Hp) as (U1 & U2 & _). apply Z; assumption.
Qed.
Lemma mat_id_ok n : gives (mat_id R n) (fun M => is_mx M n n (fun i j => if i =? j then one else zero)) E.
Proof.
  unfold mat_id. apply (gives_upto0 (fun t M => is_mx M n n (fun i j => if (i =? j) && (i <? t) then one else zero))).
  - eapply is_mx_ext; [apply fill_ok|]. intros a b Ha Hb. nb.
  - intros i M Hi HM. eapply gives_mput; [exact HM|exact Hi|exact Hi|]. intros M' HM'.
    eapply is_mx_ext; [exact HM'|]. intros a b Ha Hb. unfold upd. nb.
  - intros M HM. eapply is_mx_ext; [exact HM|]. intros a b Ha Hb. nb.
Qed.
Lemma standard_basis_ok r : gives (standard_basis R r) (fun b => length b = r /\
   forall i, i < r -> exists v, get b i = Some v /\ is_vec v r (fun j => if i =? j then one else zero)) E.
Proof.
  unfold standard_basis.
  apply (gives_upto0 (fun t b => length b = r /\
   forall i, i < r -> exists v, get b i = Some v /\ is_vec v r (fun j => if (i =? j) && (i <? t) then one else zero))).
  - split; [apply repeat_length|]. intros i Hi. exists (repeat zero r). split; [rewrite get_repeat; nb|].
    eapply is_vec_ext; [apply is_vec_repeat|]. intros j Hj. nb.
  - intros i b Hi [L G]. destruct (G i Hi) as (v & Gv & Hv).
    eapply gives_bind; [apply (gives_vget _ _ _ (eq v) Gv); reflexivity|]. intros ? <-.
    eapply bind_vput; [exact Hv|exact Hi|]. intros w Hw. apply gives_vput; [lia|].
    intros b' L' G'. split; [lia|]. intros k Hk. rewrite G'. destruct (Nat.eqb_spec k i) as [->|ne].
    + exists w. split; [reflexivity|]. eapply is_vec_ext; [exact Hw|]. intros j Hj. unfold upd1. nb.
    + destruct (G k Hk) as (u & Gu & Hu). exists u. split; [exact Gu|]. eapply is_vec_ext; [exact Hu|]. intros j Hj. nb.
  - intros b [L G]. split; [exact L|]. intros i Hi. destruct (G i Hi) as (v & Gv & Hv). exists v. split; [exact Gv|].
    eapply is_vec_ext; [exact Hv|]. intros j Hj. nb.
Qed.
Lemma mat_mul_ok M N m n p f g : is_mx M m n f -> is_mx N n p g ->
  gives (mat_mul R M N) (fun P => is_mx P m p (fun i k => sum n (fun j => mul (f i j) (g j k)))) E.
Proof.
  intros HM HN. unfold mat_mul. rewrite (is_mx_rows _ _ _ _ HM), (is_mx_cols _ _ _ _ HM), (is_mx_cols _ _ _ _ HN).
  set (h := fun i k => sum n (fun j => mul (f i j) (g j k))).
  apply (gives_upto0 (fun t P => is_mx P m p (fun a b => if a <? t then h a b else zero))).
  - exact (fill_ok _ _ zero).
  - intros i P Hi HP.
    apply (gives_upto0 (fun t P => is_mx P m p (fun a b => if (a <? i) || (a =? i) && (b <? t) then h a b else zero))).
    + eapply is_mx_ext; [exact HP|]. intros a b Ha Hb. nb.
    + intros k P' Hk HP'. eapply gives_bind; [apply (sum_loop n (fun j => mul (f i j) (g j k)))|].
      * intros j c Hj. eapply bind_mget; [exact HM|exact Hi|exact Hj|]. eapply bind_mget; [exact HN|exact Hj|exact Hk|].
        apply bind_mul. apply gives_add. reflexivity.
      * intros c <-. eapply gives_mput; [exact HP'|exact Hi|exact Hk|]. intros P'' HP''.
        eapply is_mx_ext; [exact HP''|]. intros a b Ha Hb. unfold upd. fold (h i k). nb.
    + intros P' HP'. eapply is_mx_ext; [exact HP'|]. intros a b Ha Hb. nb.
  - intros P HP. eapply is_mx_ext; [exact HP|]. intros a b Ha Hb. nb.
Qed.
Lemma mat_apply_ok M m n f w x : is_mx M m n f -> is_vec w n x ->
  gives (mat_apply R M w) (fun u => is_vec u m (fun i => sum n (fun j => mul (f i j) (x j)))) E.
Proof.
  intros HM Hw. unfold mat_apply. rewrite (is_mx_rows _ _ _ _ HM), (is_mx_cols _ _ _ _ HM).
  eapply (gives_fill m (fun i => sum n (fun j => mul (f i j) (x j)))); [apply is_vec_repeat| |auto].
  intros i u h Hi Hu _. eapply gives_bind; [apply (sum_loop n (fun j => mul (f i j) (x j)))|].
  - intros j c Hj. eapply bind_mget; [exact HM|exact Hi|exact Hj|]. eapply bind_vget; [exact Hw|exact Hj|].
    apply bind_mul. apply gives_add. reflexivity.
  - intros c <-. eapply gives_vput_vec; [exact Hu|exact Hi|auto].
Qed.
Lemma right_prod_ok M m n f w x : is_mx M m n f -> is_vec w m x ->
  gives (right_prod R M w) (fun u => is_vec u n (fun j => sum m (fun i => mul (x i) (f i j)))) E.
Proof.
  intros HM Hw. unfold right_prod. rewrite (is_mx_rows _ _ _ _ HM), (is_mx_cols _ _ _ _ HM).
  eapply (gives_fill n (fun j => sum m (fun i => mul (x i) (f i j)))); [apply is_vec_repeat| |auto].
  intros j u h Hj Hu _. eapply gives_bind; [apply (sum_loop m (fun i => mul (x i) (f i j)))|].
  - intros i c Hi. eapply bind_vget; [exact Hw|exact Hi|]. eapply bind_mget; [exact HM|exact Hi|exact Hj|].
    apply bind_mul. apply gives_add. reflexivity.
  - intros c <-. eapply gives_vput_vec; [exact Hu|exact Hj|auto].
Qed.
Lemma mat_data_ok M m n f (op : list A -> res (list A)) g : is_mx M m n f ->
  (forall v x, is_vec v (m * n) x -> (forall i j, i < m -> j < n -> x (i * n + j) = f i j) ->
     gives (op v) (fun w => exists y, is_vec w (m * n) y /\ forall i j, i < m -> j < n -> y (i * n + j) = g i j) E) ->
  gives (run d <- op (mdata M); Ok (mk_mat (mrows M) (mcols M) d)) (fun N => is_mx N m n g) E.
Proof.
  intros HM Hop. pose proof HM as H'. apply is_mx_data in H'. destruct H' as (Hr & Hc & Hv).
  eapply gives_bind; [apply (Hop _ _ Hv)|].
  - intros i j Hi Hj. destruct (index_div m n i j Hi Hj) as [E1 E2]. rewrite E1, E2. reflexivity.
  - intros d (y & Hd & Hy). apply gives_ok. split; [exact Hr|]. split; [exact Hc|]. split; [exact (proj1 Hd)|].
    cbn [mdata]. intros i j Hi Hj. rewrite (is_vec_get _ _ _ _ Hd) by (apply mul_lt; assumption). f_equal. auto.
Qed.
Lemma mx_vec M m n f : is_mx M m n f -> exists x, is_vec (mdata M) (m * n) x /\ forall i j, i < m -> j < n -> x (i * n + j) = f i j.
Proof.
  intros HM. apply is_mx_data in HM. destruct HM as (_ & _ & Hv). eexists. split; [exact Hv|]. intros i j Hi Hj. cbv beta.
  destruct (div_split (i * n + j) m n ltac:(apply mul_lt; assumption)) as (U1 & U2 & U3).
  destruct (index_inj n i j _ _ Hj U2 U3) as [E1 E2]; rewrite <- ?E1, <- ?E2 in *. reflexivity.
Qed.
Lemma mat_add_ok M N m n f g : is_mx M m n f -> is_mx N m n g ->
  gives (mat_add R M N) (fun P => is_mx P m n (fun i j => add (f i j) (g i j))) E.
Proof.
  intros HM HN. destruct (mx_vec _ _ _ _ HN) as (y & Hy & Gy). apply (mat_data_ok M m n f (fun d => vec_add R d (mdata N)) _ HM).
  intros v x Hv Gx. eapply gives_mono; [apply (vec_add_ok _ _ _ _ _ Hv Hy)|]. intros w Hw. eexists. split; [exact Hw|].
  intros i j Hi Hj. cbv beta. rewrite Gx, Gy by assumption. reflexivity.
Qed.
Lemma mat_sub_ok M N m n f g : is_mx M m n f -> is_mx N m n g ->
  gives (mat_sub R M N) (fun P => is_mx P m n (fun i j => sub (f i j) (g i j))) E.
Proof.
  intros HM HN. destruct (mx_vec _ _ _ _ HN) as (y & Hy & Gy). apply (mat_data_ok M m n f (fun d => vec_sub R d (mdata N)) _ HM).
  intros v x Hv Gx. eapply gives_mono; [apply (vec_sub_ok _ _ _ _ _ Hv Hy)|]. intros w Hw. eexists. split; [exact Hw|].
  intros i j Hi Hj. cbv beta. rewrite Gx, Gy by assumption. reflexivity.
Qed.
Lemma mat_scale_ok M c m n f : is_mx M m n f -> gives (mat_scale R M c) (fun P => is_mx P m n (fun i j => mul (f i j) c)) E.
Proof.
  intros HM. apply (mat_data_ok M m n f (fun d => vec_scale R d c) _ HM).
  intros v x Hv Gx. eapply gives_mono; [apply (vec_scale_ok _ c _ _ Hv)|]. intros w Hw. eexists. split; [exact Hw|].
  intros i j Hi Hj. cbv beta. rewrite Gx by assumption. reflexivity.
Qed.
Lemma mat_negate_ok M m n f : is_mx M m n f -> gives (mat_negate R M) (fun P => is_mx P m n (fun i j => opp (f i j))) E.
Proof.
  intros HM. apply (mat_data_ok M m n f (fun d => vec_negate R d) _ HM).
  intros v x Hv Gx. eapply gives_mono; [apply (vec_negate_ok _ _ _ Hv)|]. intros w Hw. eexists. split; [exact Hw|].
  intros i j Hi Hj. cbv beta. rewrite Gx by assumption. reflexivity.
Qed.
Lemma add_scalar_ok M c m n f : is_mx M m n f ->
  gives (add_scalar R M c) (fun P => is_mx P m n (fun i j => if i =? j then add (f i j) c else f i j)) E.
Proof.
  intros HM. unfold add_scalar. rewrite (is_mx_rows _ _ _ _ HM), (is_mx_cols _ _ _ _ HM).
  apply (gives_downto (fun t P => is_mx P m n (fun i j => if (i =? j) && (t <=? i) then add (f i j) c else f i j))).
  - eapply is_mx_ext; [exact HM|]. intros a b Ha Hb. nb.
  - intros i P Hi HP. eapply bind_mget; [exact HP|lia|lia|]. apply bind_add. eapply gives_mput; [exact HP|lia|lia|].
    intros P' HP'. eapply is_mx_ext; [exact HP'|]. intros a b Ha Hb. unfold upd. nb.
  - intros P HP. eapply is_mx_ext; [exact HP|]. intros a b Ha Hb. nb.
Qed.

(** elementary operations; [lz]: adding a zero multiple changes nothing, [lo]: neither does a factor 1 *)
Definition law_zero := forall x y, add x (mul zero y) = x.
Definition law_one := forall x, mul x one = x.
Lemma rowOperation_ok M m n f i k c : law_zero -> is_mx M m n f -> i < m -> k < m ->
  gives (rowOperation R M i k c) (fun N => is_mx N m n (fun a b => if a =? i then add (f i b) (mul c (f k b)) else f a b)) E.
Proof.
  intros lz H Hi Hk. unfold rowOperation. destruct (aeqb R c zero) eqn:Ec.
  { apply (ok_eqb _ _ _ _ _ _ HR) in Ec. subst c. apply gives_ok. eapply is_mx_ext; [exact H|].
    intros a b Ha Hb. destruct (Nat.eqb_spec a i) as [->|]; [symmetry; apply lz|reflexivity]. }
  rewrite (is_mx_cols _ _ _ _ H).
  apply (gives_upto0 (fun t N => is_mx N m n (fun a b => if (a =? i) && (b <? t) then add (f i b) (mul c (f k b)) else f a b))).
  - eapply is_mx_ext; [exact H|]. intros a b Ha Hb. nb.
  - intros j N Hj HN. eapply bind_mget; [exact HN|exact Hi|exact Hj|]. eapply bind_mget; [exact HN|exact Hk|exact Hj|].
    apply bind_mul. apply bind_add. eapply gives_mput; [exact HN|exact Hi|exact Hj|]. intros N' HN'.
    eapply is_mx_ext; [exact HN'|]. intros a b Ha Hb. unfold upd. nb.
  - intros N HN. eapply is_mx_ext; [exact HN|]. intros a b Ha Hb. nb.
Qed.
Lemma columnOperation_ok M m n f j k c : law_zero -> is_mx M m n f -> j < n -> k < n ->
  gives (columnOperation R M j k c) (fun N => is_mx N m n (fun a b => if b =? j then add (f a j) (mul c (f a k)) else f a b)) E.
Proof.
  intros lz H Hi Hk. unfold columnOperation. destruct (aeqb R c zero) eqn:Ec.
  { apply (ok_eqb _ _ _ _ _ _ HR) in Ec. subst c. apply gives_ok. eapply is_mx_ext; [exact H|].
    intros a b Ha Hb. destruct (Nat.eqb_spec b j) as [->|]; [symmetry; apply lz|reflexivity]. }
  rewrite (is_mx_rows _ _ _ _ H).
  apply (gives_upto0 (fun t N => is_mx N m n (fun a b => if (b =? j) && (a <? t) then add (f a j) (mul c (f a k)) else f a b))).
  - eapply is_mx_ext; [exact H|]. intros a b Ha Hb. nb.
  - intros i N Hi' HN. eapply bind_mget; [exact HN|exact Hi'|exact Hi|]. eapply bind_mget; [exact HN|exact Hi'|exact Hk|].
    apply bind_mul. apply bind_add. eapply gives_mput; [exact HN|exact Hi'|exact Hi|]. intros N' HN'.
    eapply is_mx_ext; [exact HN'|]. intros a b Ha Hb. unfold upd. nb.
  - intros N HN. eapply is_mx_ext; [exact HN|]. intros a b Ha Hb. nb.
Qed.
Lemma rowMultiply_ok M m n f i c : law_one -> is_mx M m n f -> i < m ->
  gives (rowMultiply R M i c) (fun N => is_mx N m n (fun a b => if a =? i then mul (f a b) c else f a b)) E.
Proof.
  intros lo H Hi. unfold rowMultiply. destruct (aeqb R c one) eqn:Ec.
  { apply (ok_eqb _ _ _ _ _ _ HR) in Ec. subst c. apply gives_ok. eapply is_mx_ext; [exact H|].
    intros a b Ha Hb. destruct (Nat.eqb_spec a i) as [->|]; [symmetry; apply lo|reflexivity]. }
  rewrite (is_mx_cols _ _ _ _ H).
  apply (gives_upto0 (fun t N => is_mx N m n (fun a b => if (a =? i) && (b <? t) then mul (f a b) c else f a b))).
  - eapply is_mx_ext; [exact H|]. intros a b Ha Hb. nb.
  - intros j N Hj HN. eapply bind_mget; [exact HN|exact Hi|exact Hj|]. apply bind_mul.
    eapply gives_mput; [exact HN|exact Hi|exact Hj|]. intros N' HN'.
    eapply is_mx_ext; [exact HN'|]. intros a b Ha Hb. unfold upd. nb.
  - intros N HN. eapply is_mx_ext; [exact HN|]. intros a b Ha Hb. nb.
Qed.
Lemma columnMultiply_ok M m n f j c : law_one -> is_mx M m n f -> j < n ->
  gives (columnMultiply R M j c) (fun N => is_mx N m n (fun a b => if b =? j then mul (f a b) c else f a b)) E.
Proof.
  intros lo H Hi. unfold columnMultiply. destruct (aeqb R c one) eqn:Ec.
  { apply (ok_eqb _ _ _ _ _ _ HR) in Ec. subst c. apply gives_ok. eapply is_mx_ext; [exact H|].
    intros a b Ha Hb. destruct (Nat.eqb_spec b j) as [->|]; [symmetry; apply lo|reflexivity]. }
  rewrite (is_mx_rows _ _ _ _ H).
  apply (gives_upto0 (fun t N => is_mx N m n (fun a b => if (b =? j) && (a <? t) then mul (f a b) c else f a b))).
  - eapply is_mx_ext; [exact H|]. intros a b Ha Hb. nb.
  - intros i N Hi' HN. eapply bind_mget; [exact HN|exact Hi'|exact Hi|]. apply bind_mul.
    eapply gives_mput; [exact HN|exact Hi'|exact Hi|]. intros N' HN'.
    eapply is_mx_ext; [exact HN'|]. intros a b Ha Hb. unfold upd. nb.
  - intros N HN. eapply is_mx_ext; [exact HN|]. intros a b Ha Hb. nb.
Qed.
Lemma row_apply_ok M m n f ops r g i : is_mx M m n f -> is_mx ops r r g -> i + r <= m ->
  gives (row_apply R M ops i) (fun N => is_mx N m n (fun a b =>
     if (i <=? a) && (a <? i + r) then sum r (fun k => mul (g (a - i) k) (f (i + k) b)) else f a b)) E.
Proof.
  intros H HO Hi. unfold row_apply. rewrite (is_mx_cols _ _ _ _ H), (is_mx_rows _ _ _ _ HO).
  set (h := fun a b => if (i <=? a) && (a <? i + r) then sum r (fun k => mul (g (a - i) k) (f (i + k) b)) else f a b).
  eapply gives_bind with (P := fun s => is_mx (fst s) m n h); [|intros s Hs; exact Hs].
  apply (gives_upto0 (fun t '(N, tmp) => is_mx N m n (fun a b => if b <? t then h a b else f a b) /\ exists x, is_vec tmp r x)).
  - split; [eapply is_mx_ext; [exact H|]; intros a b Ha Hb; nb|]. eexists. apply is_vec_repeat.
  - intros j [N tmp] Hj [HN [x Hx]].
    eapply gives_bind; [eapply (gives_fill r (fun k => f (i + k) j)) with (Q := fun w => is_vec w r (fun k => f (i + k) j)); [exact Hx| |auto]|].
    { intros k w y Hk Hw _. eapply bind_mget; [exact HN|lia|exact Hj|]. cbv beta.
      destruct (Nat.ltb_spec j j); [lia|]. eapply gives_vput_vec; [exact Hw|exact Hk|auto]. }
    intros t1 Ht1. eapply gives_bind; [apply (mat_apply_ok ops r r g t1 _ HO Ht1)|]. intros t2 Ht2.
    eapply gives_bind.
    + apply (gives_upto0 (fun t N => is_mx N m n (fun a b => if (b <? j) || (b =? j) && (a <? i + t) then h a b else f a b))) with
        (Q := fun N => is_mx N m n (fun a b => if b <? S j then h a b else f a b)).
      * eapply is_mx_ext; [exact HN|]. intros a b Ha Hb. unfold h. nb.
      * intros k N' Hk HN'. eapply bind_vget; [exact Ht2|exact Hk|]. cbv beta. eapply gives_mput; [exact HN'|lia|exact Hj|].
        intros N'' HN''. eapply is_mx_ext; [exact HN''|]. intros a b Ha Hb. unfold upd.
        destruct (Nat.eqb_spec a (i + k)) as [->|na]; [destruct (Nat.eqb_spec b j) as [->|nbj]|].
        -- cbn [andb]. unfold h. nb. replace (i + k - i) with k by lia. reflexivity.
        -- nb.
        -- nb.
      * intros N' HN'. eapply is_mx_ext; [exact HN'|]. intros a b Ha Hb. unfold h. nb.
    + intros N' HN'. apply gives_ok. split; [exact HN'|]. eexists. exact Ht2.
  - intros [N tmp] [HN _]. eapply is_mx_ext; [exact HN|]. intros a b Ha Hb. nb.
Qed.
Lemma column_apply_ok M m n f ops r g j : is_mx M m n f -> is_mx ops r r g -> j + r <= n ->
  gives (column_apply R M ops j) (fun N => is_mx N m n (fun a b =>
     if (j <=? b) && (b <? j + r) then sum r (fun l => mul (f a (j + l)) (g l (b - j))) else f a b)) E.
Proof.
  intros H HO Hi. unfold column_apply. rewrite (is_mx_rows _ _ _ _ H), (is_mx_rows _ _ _ _ HO).
  set (h := fun a b => if (j <=? b) && (b <? j + r) then sum r (fun l => mul (f a (j + l)) (g l (b - j))) else f a b).
  eapply gives_bind with (P := fun s => is_mx (fst s) m n h); [|intros s Hs; exact Hs].
  apply (gives_upto0 (fun t '(N, tmp) => is_mx N m n (fun a b => if a <? t then h a b else f a b) /\ exists x, is_vec tmp r x)).
  - split; [eapply is_mx_ext; [exact H|]; intros a b Ha Hb; nb|]. eexists. apply is_vec_repeat.
  - intros i [N tmp] Hj [HN [x Hx]].
    eapply gives_bind; [eapply (gives_fill r (fun l => f i (j + l))) with (Q := fun w => is_vec w r (fun l => f i (j + l))); [exact Hx| |auto]|].
    { intros k w y Hk Hw _. eapply bind_mget; [exact HN|exact Hj|lia|]. cbv beta.
      destruct (Nat.ltb_spec i i); [lia|]. eapply gives_vput_vec; [exact Hw|exact Hk|auto]. }
    intros t1 Ht1. eapply gives_bind; [apply (right_prod_ok ops r r g t1 _ HO Ht1)|]. intros t2 Ht2.
    eapply gives_bind.
    + apply (gives_upto0 (fun t N => is_mx N m n (fun a b => if (a <? i) || (a =? i) && (b <? j + t) then h a b else f a b))) with
        (Q := fun N => is_mx N m n (fun a b => if a <? S i then h a b else f a b)).
      * eapply is_mx_ext; [exact HN|]. intros a b Ha Hb. unfold h. nb.
      * intros k N' Hk HN'. eapply bind_vget; [exact Ht2|exact Hk|]. cbv beta. eapply gives_mput; [exact HN'|exact Hj|lia|].
        intros N'' HN''. eapply is_mx_ext; [exact HN''|]. intros a b Ha Hb. unfold upd.
        destruct (Nat.eqb_spec b (j + k)) as [->|na]; [destruct (Nat.eqb_spec a i) as [->|nbj]|].
        -- cbn [andb]. unfold h. nb. replace (j + k - j) with k by lia. reflexivity.
        -- nb.
        -- nb.
      * intros N' HN'. eapply is_mx_ext; [exact HN'|]. intros a b Ha Hb. unfold h. nb.
    + intros N' HN'. apply gives_ok. split; [exact HN'|]. eexists. exact Ht2.
  - intros [N tmp] [HN _]. eapply is_mx_ext; [exact HN|]. intros a b Ha Hb. nb.
Qed.
End Arith.
