(** Matrix operations in terms of entries. *)

From Coq Require Import List Arith ZArith NArith Lia Bool.
From Verif Require Import VecModel VecProofs PermProofs RunModel RunProofs MatModel MatSpec.
Import ListNotations.
Open Scope nat_scope.

Ltac nb := cbv beta;
  repeat (match goal with
  | |- context [Nat.eqb ?a ?b] => destruct (Nat.eqb_spec a b)
  | |- context [Nat.ltb ?a ?b] => destruct (Nat.ltb_spec a b)
  | |- context [Nat.leb ?a ?b] => destruct (Nat.leb_spec a b)
  end; cbn [andb orb negb]; try (exfalso; lia));
  cbn [andb orb negb]; try reflexivity; try lia; try congruence; try (f_equal; lia).

Lemma mul_lt a b m n : a < m -> b < n -> a * n + b < m * n.
Proof. intros. assert (S a * n <= m * n) by (apply Nat.mul_le_mono_r; lia). lia. Qed.
Lemma index_inj n i j k l : j < n -> l < n -> i * n + j = k * n + l -> i = k /\ j = l.
Proof.
  intros Hj Hl H. destruct (Nat.lt_trichotomy i k) as [L|[L|L]].
  - assert (S i * n <= k * n) by (apply Nat.mul_le_mono_r; lia). lia.
  - subst. lia.
  - assert (S k * n <= i * n) by (apply Nat.mul_le_mono_r; lia). lia.
Qed.
Lemma div_split p m n : p < m * n -> p / n < m /\ p mod n < n /\ p = p / n * n + p mod n.
Proof.
  intros H. assert (n <> 0) by (intros ->; lia).
  split; [apply Nat.div_lt_upper_bound; lia|]. split; [apply Nat.mod_upper_bound; lia|].
  rewrite (Nat.div_mod p n) at 1 by lia. lia.
Qed.

Section Lists.
Context {A : Type}.
Implicit Types v w : list A.
Lemma get_firstn v n i : get (firstn n v) i = if i <? n then get v i else None.
Proof.
  revert v i. induction n as [|n IH]; intros v i; [destruct i; reflexivity|].
  destruct v as [|x v]; [destruct i; cbn [firstn]; destruct (_ <? _); reflexivity|]. destruct i as [|i]; [reflexivity|].
  cbn [firstn]. exact (IH v i).
Qed.
Lemma get_skipn v n i : get (skipn n v) i = get v (n + i).
Proof.
  revert v. induction n as [|n IH]; intros v; [reflexivity|].
  destruct v as [|x v]; [destruct i; reflexivity|]. exact (IH v).
Qed.
Lemma is_vec_ext v n f g : is_vec v n f -> (forall i, i < n -> f i = g i) -> is_vec v n g.
Proof. intros [L G] H. split; [exact L|]. intros i Hi. rewrite <- H by exact Hi. exact (G i Hi). Qed.
Lemma is_vec_get v n f i : is_vec v n f -> i < n -> get v i = Some (f i).
Proof. intros [_ G]. exact (G i). Qed.
Lemma is_vec_repeat (x : A) n : is_vec (repeat x n) n (fun _ => x).
Proof.
  split; [apply repeat_length|]. intros i Hi. rewrite get_repeat. nb.
Qed.
Lemma is_vec_eq v w n f : is_vec v n f -> is_vec w n f -> v = w.
Proof. intros [L G] [L' G']. apply vec_ext; [congruence|]. intros i Hi. rewrite G, G' by lia. reflexivity. Qed.
Lemma is_vec_some (z : A) v : is_vec v (length v) (fun i => nth i v z).
Proof. split; [reflexivity|]. intros i Hi. apply get_nth. exact Hi. Qed.

Context {E : err -> Prop}.
Lemma gives_slice v n f a b (P : list A -> Prop) :
  is_vec v n f -> a <= b -> b <= n -> (forall w, is_vec w (b - a) (fun i => f (a + i)) -> P w) ->
  gives (vslice v a b) P E.
Proof.
  intros [L G] Hab Hb HP. unfold vslice.
  assert (X : (a <=? b) && (b <=? length v) = true) by nb. rewrite X. cbn.
  apply HP. split; [rewrite firstn_length, skipn_length; lia|].
  intros i Hi. rewrite get_firstn, get_skipn. nb. apply G. lia.
Qed.
Lemma gives_copy src v n f k g pos (P : list A -> Prop) :
  is_vec v n f -> is_vec src k g -> pos + k <= n ->
  (forall w, is_vec w n (fun i => if (pos <=? i) && (i <? pos + k) then g (i - pos) else f i) -> P w) ->
  gives (vcopy src v pos) P E.
Proof.
  intros [L G] [Lk Gk] Hp HP. unfold vcopy.
  assert (X : pos + length src <=? length v = true) by nb. rewrite X. cbn. apply HP. split.
  - rewrite !app_length, firstn_length, skipn_length. lia.
  - intros i Hi. rewrite get_app, firstn_length, Nat.min_l by lia.
    destruct (Nat.ltb_spec i pos).
    + rewrite get_firstn. nb. apply G. lia.
    + rewrite get_app. destruct (Nat.ltb_spec (i - pos) (length src)).
      * nb. apply Gk. lia.
      * rewrite get_skipn. nb. replace (pos + length src + (i - pos - length src)) with i by lia. apply G. lia.
Qed.
Lemma resize_ok v n f k z : is_vec v n f -> is_vec (vresize v k z) k (fun i => if i <? n then f i else z).
Proof.
  intros [L G]. unfold vresize. split.
  - rewrite app_length, firstn_length, repeat_length. lia.
  - intros i Hi. rewrite get_app, firstn_length. destruct (Nat.ltb_spec i n).
    + destruct (Nat.ltb_spec i (Nat.min k (length v))); [|lia]. rewrite get_firstn. nb. apply G. lia.
    + destruct (Nat.ltb_spec i (Nat.min k (length v))); [lia|]. rewrite get_repeat. nb.
Qed.
Lemma gives_erase v n f a b (P : list A -> Prop) :
  is_vec v n f -> a <= b -> b <= n ->
  (forall w, is_vec w (n - (b - a)) (fun i => if i <? a then f i else f (i + (b - a))) -> P w) ->
  gives (verase v a b) P E.
Proof.
  intros [L G] Hab Hb HP. unfold verase.
  assert (X : (a <=? b) && (b <=? length v) = true) by nb. rewrite X. cbn. apply HP. split.
  - rewrite app_length, firstn_length, skipn_length. lia.
  - intros i Hi. rewrite get_app, firstn_length. destruct (Nat.ltb_spec i a).
    + destruct (Nat.ltb_spec i (Nat.min a (length v))); [|lia]. rewrite get_firstn. nb. apply G. lia.
    + destruct (Nat.ltb_spec i (Nat.min a (length v))); [lia|]. rewrite get_skipn.
      replace (b + (i - Nat.min a (length v))) with (i + (b - a)) by lia. apply G. lia.
Qed.
Lemma bind_vget {B} v n f i (k : A -> res B) (Q : B -> Prop) :
  is_vec v n f -> i < n -> gives (k (f i)) Q E -> gives (bind (vget v i) k) Q E.
Proof. intros H Hi HQ. unfold vget. rewrite (is_vec_get _ _ _ _ H Hi). exact HQ. Qed.
Lemma gives_vput_vec v n f i x (P : list A -> Prop) :
  is_vec v n f -> i < n -> (forall w, is_vec w n (upd1 f i x) -> P w) -> gives (vput v i x) P E.
Proof.
  intros [L G] Hi HP. apply gives_vput; [lia|]. intros w Lw Gw. apply HP. split; [congruence|].
  intros j Hj. rewrite Gw. unfold upd1. nb. apply G. exact Hj.
Qed.
Lemma bind_vput {B} v n f i x (k : list A -> res B) (Q : B -> Prop) :
  is_vec v n f -> i < n -> (forall w, is_vec w n (upd1 f i x) -> gives (k w) Q E) ->
  gives (bind (vput v i x) k) Q E.
Proof. intros H Hi HQ. eapply gives_bind; [apply (gives_vput_vec _ _ _ _ _ (fun w => is_vec w n (upd1 f i x)) H Hi); auto|exact HQ]. Qed.
(** filling a vector entry by entry *)
Lemma gives_fill n g v f (body : nat -> list A -> res (list A)) (Q : list A -> Prop) :
  is_vec v n f ->
  (forall i w h, i < n -> is_vec w n h -> (forall k, i <= k < n -> h k = f k) -> gives (body i w) (fun w' => is_vec w' n (upd1 h i (g i))) E) ->
  (forall w, is_vec w n g -> Q w) ->
  gives (upto n 0 body v) Q E.
Proof.
  intros H Hb HQ.
  apply (gives_upto0 (fun k w => is_vec w n (fun i => if i <? k then g i else f i))).
  - eapply is_vec_ext; [exact H|]. intros. nb.
  - intros i w Hi Hw. eapply gives_mono; [eapply Hb; [exact Hi|exact Hw|]|].
    + intros k Hk. nb.
    + intros w' Hw'. eapply is_vec_ext; [exact Hw'|]. intros k Hk. unfold upd1. cbn beta. nb.
  - intros w Hw. apply HQ. eapply is_vec_ext; [exact Hw|]. intros i Hi. nb.
Qed.
End Lists.

Section Mat.
Context {A : Type} {E : err -> Prop}.
Implicit Types (M : matrix A) (f g : nat -> nat -> A).

Lemma is_mx_ext M m n f g : is_mx M m n f -> feq m n f g -> is_mx M m n g.
Proof.
  intros (R & C & L & G) H. split; [exact R|]. split; [exact C|]. split; [exact L|].
  intros i j Hi Hj. rewrite G by assumption. f_equal. apply H; assumption.
Qed.
Lemma is_mx_rows M m n f : is_mx M m n f -> mrows M = m. Proof. intros (R & _). exact R. Qed.
Lemma is_mx_cols M m n f : is_mx M m n f -> mcols M = n. Proof. intros (_ & C & _). exact C. Qed.
Lemma is_mx_data M m n f :
  is_mx M m n f <-> mrows M = m /\ mcols M = n /\ is_vec (mdata M) (m * n) (fun p => f (p / n) (p mod n)).
Proof.
  split.
  - intros (R & C & L & G). split; [exact R|]. split; [exact C|]. split; [exact L|].
    intros p Hp. destruct (div_split _ _ _ Hp) as (H1 & H2 & H3). rewrite H3 at 1. apply G; assumption.
  - intros (R & C & L & G). split; [exact R|]. split; [exact C|]. split; [exact L|].
    intros i j Hi Hj. rewrite G by (apply mul_lt; assumption). f_equal.
    destruct (div_split (i * n + j) m n ltac:(apply mul_lt; assumption)) as (H1 & H2 & H3).
    destruct (index_inj n i j _ _ Hj H2 H3) as [<- <-]. reflexivity.
Qed.
Lemma is_mx_eq M N m n f : is_mx M m n f -> is_mx N m n f -> M = N.
Proof.
  rewrite !is_mx_data. intros (R & C & V) (R' & C' & V'). destruct M as [r c d], N as [r' c' d']. cbn in *.
  rewrite (is_vec_eq _ _ _ _ V V'). congruence.
Qed.
Lemma fill_ok m n (x : A) : is_mx (mat_fill m n x) m n (fun _ _ => x).
Proof. apply is_mx_data. split; [reflexivity|]. split; [reflexivity|]. apply is_vec_repeat. Qed.

Lemma bind_mget {B} M m n f i j (k : A -> res B) (Q : B -> Prop) :
  is_mx M m n f -> i < m -> j < n -> gives (k (f i j)) Q E -> gives (bind (mget M i j) k) Q E.
Proof. intros (_ & C & _ & G) Hi Hj HQ. unfold mget, vget. rewrite C, G by assumption. exact HQ. Qed.
Lemma gives_mget M m n f i j (Q : A -> Prop) :
  is_mx M m n f -> i < m -> j < n -> Q (f i j) -> gives (mget M i j) Q E.
Proof. intros (_ & C & _ & G) Hi Hj HQ. unfold mget, vget. rewrite C, G by assumption. exact HQ. Qed.
Lemma gives_mput M m n f i j x (P : matrix A -> Prop) :
  is_mx M m n f -> i < m -> j < n -> (forall M', is_mx M' m n (upd f i j x) -> P M') ->
  gives (mput M i j x) P E.
Proof.
  intros (R & C & L & G) Hi Hj HP. unfold mput. rewrite R, C.
  eapply gives_bind; [apply (gives_vput _ _ _ (fun w => length w = length (mdata M) /\
     forall p, get w p = if p =? i * n + j then Some x else get (mdata M) p))|].
  - rewrite L. apply mul_lt; assumption.
  - intros w L' G'. split; assumption.
  - intros w [L' G']. apply HP. split; [reflexivity|]. split; [reflexivity|]. cbn [mdata]. split; [congruence|].
    intros a b Ha Hb. rewrite G'. unfold upd. destruct (Nat.eqb_spec (a * n + b) (i * n + j)) as [e|ne].
    + destruct (index_inj n _ _ _ _ Hb Hj e) as [-> ->]. nb.
    + rewrite G by assumption. nb.
Qed.
Lemma bind_mput {B} M m n f i j x (k : matrix A -> res B) (Q : B -> Prop) :
  is_mx M m n f -> i < m -> j < n -> (forall M', is_mx M' m n (upd f i j x) -> gives (k M') Q E) ->
  gives (bind (mput M i j x) k) Q E.
Proof.
  intros H Hi Hj HQ. eapply gives_bind; [|exact HQ].
  apply (gives_mput _ _ _ _ _ _ _ (fun M' => is_mx M' m n (upd f i j x)) H Hi Hj). auto.
Qed.

End Mat.
