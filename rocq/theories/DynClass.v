(** Classification of one component: the result is right, and every exception has a reason. *)

From Coq Require Import List Arith ZArith Bool Lia Permutation.
From Verif Require Import VecModel VecProofs RunModel RunProofs MatModel MatSpec MatProofs BitsetModel BitsetSpec
  LieTypeModel LieTypeSpec DynkinModel DynBits DynGraph DynTrav DynRead.
Import ListNotations.
Local Open Scope nat_scope.

Lemma len1 (l : list nat) : length l = 1 -> exists a, forall x, In x l <-> x = a.
Proof. destruct l as [|a [|]]; cbn; intros H; try lia. exists a. intros y. intuition. Qed.
Lemma len2 (l : list nat) : NoDup l -> length l = 2 -> exists a b, a <> b /\ forall x, In x l <-> x = a \/ x = b.
Proof.
  destruct l as [|a [|b [|]]]; cbn; intros N H; try lia. exists a, b. inversion N as [|? ? Ha _]. split.
  - intros ->. apply Ha. left. reflexivity.
  - intros y. intuition.
Qed.
Lemma len3 (l : list nat) : NoDup l -> length l = 3 ->
  exists a b c, a <> b /\ a <> c /\ b <> c /\ forall x, In x l <-> x = a \/ x = b \/ x = c.
Proof.
  destruct l as [|a [|b [|c [|]]]]; cbn; intros N H; try lia. exists a, b, c. inversion N as [|? ? Ha N2]. inversion N2 as [|? ? Hb N3]. subst.
  repeat split; try (intros ->; cbn in *; tauto); intuition.
Qed.
Lemma take1 (l : list nat) : 1 <= length l -> exists a, In a l.
Proof. destruct l as [|a l]; cbn; intros H; [lia|]. exists a. auto. Qed.
Lemma take2 (l : list nat) : NoDup l -> 2 <= length l -> exists a b, a <> b /\ In a l /\ In b l.
Proof.
  destruct l as [|a [|b l]]; cbn; intros N H; try lia. exists a, b. inversion N as [|? ? Ha _]. repeat split; auto. intros ->. apply Ha. left. reflexivity.
Qed.
Lemma take3 (l : list nat) : NoDup l -> 3 <= length l -> exists a b c, a <> b /\ a <> c /\ b <> c /\ In a l /\ In b l /\ In c l.
Proof.
  destruct l as [|a [|b [|c l]]]; cbn; intros N H; try lia. exists a, b, c. inversion N as [|? ? Ha N2]. inversion N2 as [|? ? Hb N3]. subst.
  repeat split; auto; intros ->; cbn in *; tauto.
Qed.
Lemma sub_length (l m : list nat) : NoDup l -> (forall x, In x l -> In x m) -> length l <= length m.
Proof. intros N H. apply NoDup_incl_length; auto. Qed.

Lemma degsum_leaves (Dg : nat -> nat) g L : NoDup L -> (forall x, In x L -> 1 <= Dg x) -> (forall x, In x L -> x <> g -> Dg x <= 2) -> Dg g = 3 ->
  degsum L Dg + length (filter (fun x => Dg x <? 2) L) = 2 * length L + (if in_dec Nat.eq_dec g L then 1 else 0).
Proof.
  induction L as [|x L IH]; intros N P U G; [reflexivity|]. inversion N as [|? ? Nx N1]. subst.
  specialize (IH N1 (fun y H => P y (or_intror H)) (fun y H => U y (or_intror H)) G).
  pose proof (P x (or_introl eq_refl)). pose proof (U x (or_introl eq_refl)) as U1. cbn [degsum filter].
  destruct (in_dec Nat.eq_dec g L) as [I1|I1], (in_dec Nat.eq_dec g (x :: L)) as [I2|I2].
  - assert (x <> g) by (intros ->; contradiction). specialize (U1 H0). destruct (Nat.ltb_spec (Dg x) 2); cbn [length]; lia.
  - exfalso. apply I2. right. exact I1.
  - destruct I2 as [->|I2]; [|contradiction]. rewrite G. destruct (Nat.ltb_spec 3 2); cbn [length]; lia.
  - assert (x <> g) by (intros ->; apply I2; left; reflexivity). specialize (U1 H0). destruct (Nat.ltb_spec (Dg x) 2); cbn [length]; lia.
Qed.
Lemma std_D r a b : 4 <= r -> a < r -> b < r -> a <> b ->
  std tD r a b = bond (if a =? r - 1 then b =? r - 3 else if b =? r - 1 then a =? r - 3 else line a b).
Proof.
  intros R Ha Hb N. unfold std, is_edge, is_pair, line. rewrite (proj2 (Nat.eqb_neq a b)) by exact N.
  destruct (Nat.eqb_spec a (r - 1)), (Nat.eqb_spec b (r - 1)), (Nat.eqb_spec a (r - 2)), (Nat.eqb_spec b (r - 2)), (Nat.eqb_spec a (r - 3)), (Nat.eqb_spec b (r - 3)),
    (Nat.eqb_spec (S a) b), (Nat.eqb_spec (S b) a); try lia; try reflexivity.
Qed.
Definition pat_E (a b : nat) : bool :=
  match a, b with
  | 0, S (S k) => k =? 0
  | S (S k), 0 => k =? 0
  | 1, S (S k) => k =? 1
  | S (S k), 1 => k =? 1
  | S (S i), S (S j) => line i j
  | _, _ => false
  end.
Lemma std_E r a b : r <= 8 -> a < r -> b < r -> a <> b -> std tE r a b = bond (pat_E a b).
Proof.
  intros R Ha Hb N. unfold std. rewrite (proj2 (Nat.eqb_neq a b)) by exact N.
  assert (A : a < 8) by lia. assert (B : b < 8) by lia. clear Ha Hb R.
  do 8 (destruct a as [|a]; [do 8 (destruct b as [|b]; [reflexivity || (exfalso; apply N; reflexivity)|]); lia|]). lia.
Qed.

Lemma NoDup_app_intro (l m : list nat) : NoDup l -> NoDup m -> (forall x, In x l -> In x m -> False) -> NoDup (l ++ m).
Proof.
  induction l as [|x l IH]; intros Hl Hm D; [exact Hm|]. inversion Hl as [|? ? Nx Nl]. subst. cbn. constructor.
  - intros I. apply in_app_iff in I as [I|I]; [contradiction|]. apply (D x); [left; reflexivity|exact I].
  - apply IH; [exact Nl|exact Hm|]. intros y I1 I2. apply (D y); [right; exact I1|exact I2].
Qed.
Lemma els_split a b : is32 a -> is32 b -> length (els a) = length (els (and1 b a)) + length (els (andnot1 a b)).
Proof.
  intros Ha Hb. rewrite <- app_length. destruct (and_ok b a Hb Ha) as [W1 M1]. destruct (andnot_ok a b Ha Hb) as [W2 M2].
  apply Permutation_length. apply NoDup_Permutation; [apply els_nodup| |].
  - apply NoDup_app_intro; [apply els_nodup|apply els_nodup|].
    intros x I1 I2. apply (els_in _ x W1) in I1. apply (els_in _ x W2) in I2. rewrite M1 in I1. rewrite M2 in I2.
    destruct (mem a x), (mem b x); discriminate.
  - intros x. rewrite in_app_iff. rewrite (els_in a x Ha), (els_in _ x W1), (els_in _ x W2), M1, M2.
    destruct (mem a x), (mem b x); cbn; intuition.
Qed.

Section Class.
Variable n : nat.
Variable f : nat -> nat -> Z.
Variable c : matrix Z.
Variable star : list Z.
Variable down : list (nat * nat * Z).
Hypothesis RD : readable n f.
Hypothesis MX : is_mx c n n f.
Let adj := adjf n f.
Hypothesis ST : stars star n adj.
Hypothesis LB : labels n f down.
(** a component *)
Variable Sp : Z.
Hypothesis Sp32 : is32 Sp.
Hypothesis Sn : forall u, mem Sp u = true -> u < n.
Hypothesis SC : connected adj (mem Sp).
Hypothesis SCl : forall i j, mem Sp i = true -> adj i j = true -> mem Sp j = true.

Let adj_sym : forall i j, adj i j = adj j i.
Proof. intros. apply adjf_sym. apply RD. Qed.
Let adj_irr : forall i, adj i i = false.
Proof. intros. apply adjf_irr. Qed.
Let H32 : n <= 32 := n32 star n adj ST.

(** the degree of a node *)
Definition D (i : nat) : nat := length (els (nth i star 0%Z)).
Definition rank := length (els Sp).
Lemma nb_in i x : mem Sp i = true -> In x (els (nth i star 0%Z)) <-> adj i x = true.
Proof. intros H. apply Sn in H. rewrite els_in by (apply (star_32 star n adj ST); auto). rewrite (star_mem star n adj ST) by auto. reflexivity. Qed.
Lemma D_count i : mem Sp i = true -> ncount (nth i star 0%Z) = D i.
Proof. intros H. apply ncount_ok. apply (star_32 star n adj ST). auto. Qed.
Lemma D_ge i l : mem Sp i = true -> NoDup l -> (forall x, In x l -> adj i x = true) -> length l <= D i.
Proof. intros H N A. apply sub_length; auto. intros x I. apply nb_in; auto. Qed.
Lemma D_thin i R : mem Sp i = true -> D i <= 2 -> thin adj R i.
Proof.
  intros H L u v w _ _ _ Eu Ev Ew. destruct (Nat.eq_dec u v); [auto|]. destruct (Nat.eq_dec u w); [auto|]. destruct (Nat.eq_dec v w); [auto|].
  exfalso. pose proof (D_ge i [u; v; w] H) as G. cbn [length] in G. assert (3 <= D i); [|lia]. apply G.
  - repeat constructor; cbn; intuition.
  - cbn. intuition (subst; auto).
Qed.
Lemma D_leaf i R : mem Sp i = true -> D i < 2 -> leaf adj R i.
Proof.
  intros H L u v _ _ Eu Ev. destruct (Nat.eq_dec u v); [auto|]. exfalso.
  pose proof (D_ge i [u; v] H) as G. cbn [length] in G. assert (2 <= D i); [|lia]. apply G.
  - repeat constructor; cbn; intuition.
  - cbn. intuition (subst; auto).
Qed.
Lemma D_pos i : 2 <= rank -> mem Sp i = true -> 1 <= D i.
Proof.
  intros R H. destruct (take2 (els Sp) (els_nodup Sp) R) as (a & b & N & Ia & Ib). rewrite els_in in Ia, Ib by auto.
  assert (exists y, y <> i /\ mem Sp y = true) as (y & Ny & My) by (destruct (Nat.eq_dec a i) as [->|]; [exists b|exists a]; auto).
  destruct (connected_nbr adj (mem Sp) i y SC H My ltac:(auto)) as (u & _ & E).
  apply (D_ge i [u] H); [repeat constructor; cbn; intuition|]. cbn. intuition (subst; auto).
Qed.
Lemma D_one i : 2 <= rank -> mem Sp i = true -> D i < 2 -> exists a, forall x, adj i x = true <-> x = a.
Proof.
  intros R H L. pose proof (D_pos i R H). destruct (len1 (els (nth i star 0%Z))) as (a & A); [fold (D i); lia|].
  exists a. intros x. rewrite <- A. symmetry. apply nb_in. exact H.
Qed.

Lemma rank_eq : rank = length (els Sp). Proof. reflexivity. Qed.
Lemma D_eq i : D i = length (els (nth i star 0%Z)). Proof. reflexivity. Qed.
Local Opaque D rank.

(** ** Entries *)
Lemma f_diag x : mem Sp x = true -> f x x = 2%Z.
Proof. intros H. apply RD. auto. Qed.
Lemma f_off x y : mem Sp x = true -> mem Sp y = true -> x <> y -> adj x y = false -> f x y = 0%Z.
Proof.
  intros Hx Hy N E. destruct (Z.eq_dec (f x y) 0); [auto|]. unfold adj in E. rewrite adjf_intro in E; auto. discriminate.
Qed.
Lemma f_simple x y : adj x y = true -> (-1 <= f x y)%Z -> f x y = (-1)%Z.
Proof.
  intros E L. apply adjf_lt in E as (Hx & Hy & N & Z0). destruct RD as ((_ & O & _) & _). specialize (O x y Hx Hy N). lia.
Qed.

(** the numbering [q] makes the component the diagram of type [X] *)
Definition shape (X : letter) (q : list nat) : Prop :=
  valid_rank X (length q) /\ lists q (mem Sp) /\
  forall a b, a < length q -> b < length q -> f (nth a q 0) (nth b q 0) = std X (length q) a b.

(** why a component is refused *)
Inductive reason : Prop :=
| R_product i j : rank = 2 -> mem Sp i = true -> mem Sp j = true -> i <> j ->
    (f i j * f j i <> 1)%Z -> (f i j * f j i <> 2)%Z -> (f i j * f j i <> 3)%Z -> reason
| R_degree i : mem Sp i = true -> 3 < D i -> reason
| R_forks i j : mem Sp i = true -> mem Sp j = true -> i <> j -> D i = 3 -> D j = 3 -> reason
| R_loop : 2 < rank -> (forall u v, mem Sp u = true -> mem Sp v = true -> D u < 2 -> D v < 2 -> u = v) -> reason
| R_triple a b : 2 < rank -> mem Sp a = true -> mem Sp b = true -> a <> b -> f a b = (-3)%Z -> reason
| R_labels a b a' b' : 2 < rank -> mem Sp a = true -> mem Sp b = true -> mem Sp a' = true -> mem Sp b' = true ->
    a <> b -> a' <> b' -> (a, b) <> (a', b') -> (f a b < -1)%Z -> (f a' b' < -1)%Z -> reason
| R_both i a b : mem Sp i = true -> D i = 3 -> mem Sp a = true -> mem Sp b = true -> a <> b -> (f a b < -1)%Z -> reason
| R_no_arm i u v : mem Sp i = true -> D i = 3 -> (forall l, In l [u; v] -> mem Sp l = true /\ D l < 2 /\ adj i l = false) -> u <> v ->
    ~ (exists s, forall x, mem Sp x = true /\ D x < 2 /\ adj i x = true <-> x = s) -> reason
| R_E i s : mem Sp i = true -> D i = 3 -> 8 < rank -> mem Sp s = true ->
    (forall x, mem Sp x = true /\ D x < 2 /\ adj i x = true <-> x = s) -> reason
| R_arms i u v : mem Sp i = true -> D i = 3 -> (forall l, In l [u; v] -> mem Sp l = true /\ D l < 2 /\ adj i l = false /\ forall x, adj l x = true -> adj i x = false) ->
    u <> v -> reason
| R_F u l : mem Sp u = true -> mem Sp l = true -> u <> l -> (f u l < -1)%Z -> 2 <= D u -> 2 <= D l -> 4 < rank -> reason.

(** ** The loops collecting special nodes and edges *)
Definition node_inv (L : list nat) (fe : option nat * Z) : Prop :=
  is32 (snd fe) /\
  (forall x, mem (snd fe) x = true <-> In x L /\ D x < 2) /\
  match fst fe with
  | None => forall x, In x L -> D x <= 2
  | Some i => In i L /\ D i = 3 /\ forall x, In x L -> x <> i -> D x <= 2
  end.
Lemma scan_nodes_ok L2 : forall L1 fork ext, (forall x, In x (L1 ++ L2) -> mem Sp x = true) -> NoDup (L1 ++ L2) -> node_inv L1 (fork, ext) ->
  gives (scan_nodes star L2 fork ext) (node_inv (L1 ++ L2)) (fun e => e = Thrown /\ reason).
Proof.
  induction L2 as [|i L2 IH]; intros L1 fork ext M N (W & X & Fk); cbn [fst snd] in *.
  - cbn [scan_nodes]. apply gives_ok. rewrite app_nil_r. exact (conj W (conj X Fk)).
  - assert (Mi : mem Sp i = true) by (apply M; apply in_app_iff; right; left; reflexivity).
    assert (Ni : ~ In i L1) by (intros H; apply NoDup_remove_2 in N; apply N; apply in_app_iff; auto).
    assert (E : L1 ++ i :: L2 = (L1 ++ [i]) ++ L2) by (rewrite <- app_assoc; reflexivity).
    cbn [scan_nodes]. rewrite (star_get star n adj ST) by (apply Sn; auto). cbn [bind]. rewrite D_count by auto. rewrite E in *.
    assert (Grow : D i <= 2 -> match fork with
        | None => forall x, In x (L1 ++ [i]) -> D x <= 2
        | Some g => In g (L1 ++ [i]) /\ D g = 3 /\ forall x, In x (L1 ++ [i]) -> x <> g -> D x <= 2 end).
    { intros L. destruct fork as [g|].
      - destruct Fk as (Ig & Dg & Fk). split; [apply in_app_iff; auto|]. split; [auto|].
        intros x H1 Nx. apply (in_app_iff L1 [i] x) in H1. destruct H1 as [H1|[<-|[]]]; [apply Fk; assumption|exact L].
      - intros x H1. apply (in_app_iff L1 [i] x) in H1. destruct H1 as [H1|[<-|[]]]; [apply Fk; assumption|exact L]. }
    destruct (Nat.eqb_spec (D i) 2) as [D2|D2]; cbn [negb].
    + apply IH; auto. split; [exact W|]. split; [|apply Grow; lia].
      intros x. cbn [snd]. rewrite X, in_app_iff. cbn [In]. split; [intros [H1 H2]; split; [left|]; assumption|]. intros [[H1|[<-|[]]] H2]; [split; assumption|lia].
    + destruct (Nat.ltb_spec (D i) 2) as [L|L].
      * assert (H : i < 32) by (apply Sn in Mi; lia).
        destruct (nset_ok ext i W H) as (b & -> & Wb & Mb). cbn [bind]. apply IH; auto. split; [exact Wb|]. split; [|apply Grow; lia].
        intros x. cbn [snd]. rewrite Mb, in_app_iff. cbn [In]. destruct (Nat.eqb_spec x i) as [->|Nx]; cbn [orb].
        { split; [intros _; split; [right; left; reflexivity|exact L]|reflexivity]. }
        rewrite X. split; [intros [H1 H2]; split; [left|]; assumption|]. intros [[H1|[H1|[]]] H2]; [split; assumption|]. subst. contradiction.
      * destruct (Nat.eqb_spec (D i) 3) as [D3|D3].
        -- destruct fork as [g|].
           ++ apply gives_fail. split; [reflexivity|]. destruct Fk as (Ig & Dg & _).
              apply (R_forks g i); auto; [apply M; apply in_app_iff; left; apply in_app_iff; auto|]. intros ->. contradiction.
           ++ apply IH; auto. split; [exact W|]. split.
              ** intros x. cbn [snd]. rewrite X, in_app_iff. cbn [In]. split; [intros [H1 H2]; split; [left|]; assumption|]. intros [[H1|[<-|[]]] H2]; [split; assumption|lia].
              ** cbn [fst]. split; [apply in_app_iff; right; left; auto|]. split; [auto|].
                 intros x H1 Nx. apply (in_app_iff L1 [i] x) in H1. destruct H1 as [H1|[<-|[]]]; [apply Fk; assumption|contradiction].
        -- apply gives_fail. split; [reflexivity|]. apply (R_degree i); auto. lia.
Qed.

Definition edge_inv (L : list (nat * nat * Z)) (ul : option (nat * nat)) : Prop :=
  match ul with
  | None => forall a b l, In (a, b, l) L -> mem Sp a = false
  | Some (u, v) => In (u, v, 2%Z) L /\ mem Sp u = true /\ forall a b l, In (a, b, l) L -> mem Sp a = true -> (a, b) = (u, v)
  end.
Lemma label_in a b l : In (a, b, l) down -> mem Sp a = true -> mem Sp b = true /\ a <> b /\ (f a b < -1)%Z /\ l = (- f a b)%Z.
Proof.
  intros H M. apply LB in H as (Ha & Hb & N & L & E). repeat split; auto. apply (SCl a); [auto|]. apply adjf_intro; auto. lia.
Qed.
Lemma scan_edges_ok L2 : 2 < rank -> forall L1 ul, L1 ++ L2 = down -> edge_inv L1 ul ->
  gives (scan_edges L2 Sp ul) (edge_inv down) (fun e => e = Thrown /\ reason).
Proof.
  intros Rk. induction L2 as [|[[a b] l] L2 IH]; intros L1 ul E V.
  - cbn [scan_edges]. apply gives_ok. rewrite app_nil_r in E. subst. exact V.
  - assert (Il : In (a, b, l) down) by (rewrite <- E; apply in_app_iff; right; left; reflexivity).
    assert (E' : (L1 ++ [(a, b, l)]) ++ L2 = down) by (rewrite <- app_assoc; exact E).
    cbn [scan_edges]. rewrite ntest_ok. destruct (mem Sp a) eqn:Ma.
    + destruct (label_in a b l Il Ma) as (Mb & N & L & El). destruct (Z.eqb_spec l 3) as [E3|E3].
      * apply gives_fail. split; [reflexivity|]. apply (R_triple a b); auto. lia.
      * assert (Elt : l = 2%Z). { destruct RD as [_ B3]. specialize (B3 a b ltac:(auto) ltac:(auto) N). lia. }
        destruct ul as [[u v]|].
        -- apply gives_fail. split; [reflexivity|]. destruct V as (Iu & Mu & _).
           assert (Iu' : In (u, v, 2%Z) down) by (rewrite <- E; apply in_app_iff; auto).
           destruct (label_in u v 2%Z Iu' Mu) as (Mv & Nv & Lv & Ev).
           apply (R_labels a b u v); auto. intros [= -> ->]. destruct LB as [ND _]. rewrite <- E in ND. apply NoDup_remove_2 in ND.
           apply ND. apply in_app_iff. left. rewrite Elt. exact Iu.
        -- apply (IH (L1 ++ [(a, b, l)])); auto. cbn. rewrite Elt. split; [apply in_app_iff; right; left; reflexivity|]. split; [exact Ma|].
           intros a' b' l' H M'. apply in_app_iff in H as [H|[H|[]]]; [|congruence]. apply V in H. congruence.
    + apply (IH (L1 ++ [(a, b, l)])); auto. destruct ul as [[u v]|]; cbn in *.
      * destruct V as (Iu & Mu & V). split; [apply in_app_iff; left; exact Iu|]. split; [exact Mu|].
        intros a' b' l' H M'. apply in_app_iff in H as [H|[H|[]]]; [apply (V a' b' l'); assumption|congruence].
      * intros a' b' l' H. apply in_app_iff in H as [H|[H|[]]]; [apply (V a' b' l'); assumption|congruence].
Qed.

(** ** From numberings to shapes *)
Lemma lists_length q : lists q (mem Sp) -> length q = rank.
Proof.
  intros [N I]. rewrite rank_eq. apply Permutation_length. apply NoDup_Permutation; [exact N|apply els_nodup|].
  intros x. rewrite I. rewrite els_in by exact Sp32. reflexivity.
Qed.
Lemma idx q x : lists q (mem Sp) -> mem Sp x = true -> exists a, a < length q /\ nth a q 0 = x.
Proof. intros [_ I] H. apply I in H. apply In_nth. exact H. Qed.
Lemma at_mem q a : lists q (mem Sp) -> a < length q -> mem Sp (nth a q 0) = true.
Proof. intros [_ I] H. apply I. apply nth_In. exact H. Qed.
Lemma at_inj q a b : lists q (mem Sp) -> a < length q -> b < length q -> nth a q 0 = nth b q 0 -> a = b.
Proof. intros [N _] Ha Hb E. apply (proj1 (NoDup_nth q 0) N); assumption. Qed.
Lemma entry_simple x y : mem Sp x = true -> mem Sp y = true -> x <> y -> (-1 <= f x y)%Z -> f x y = bond (adj x y).
Proof.
  intros Hx Hy N L. destruct (adj x y) eqn:E; cbn.
  - apply f_simple; assumption.
  - apply f_off; assumption.
Qed.
Lemma shape_intro X q : valid_rank X (length q) -> X <> tT -> lists q (mem Sp) ->
  (forall a b, a < length q -> b < length q -> a <> b -> f (nth a q 0) (nth b q 0) = std X (length q) a b) -> shape X q.
Proof.
  intros V NT L H. split; [exact V|]. split; [exact L|]. intros a b Ha Hb. destruct (Nat.eq_dec a b) as [->|N]; [|apply H; assumption].
  rewrite f_diag by (apply at_mem; assumption). unfold std. rewrite Nat.eqb_refl. reflexivity.
Qed.
(** no labelled edges, or only one *)
Definition nolab : Prop := forall a b, mem Sp a = true -> mem Sp b = true -> a <> b -> (-1 <= f a b)%Z.
Definition onelab (u v : nat) : Prop :=
  mem Sp u = true /\ mem Sp v = true /\ u <> v /\ adj u v = true /\ f u v = (-2)%Z /\
  forall a b, mem Sp a = true -> mem Sp b = true -> a <> b -> (a, b) <> (u, v) -> (-1 <= f a b)%Z.
Lemma edges_none : edge_inv down None -> nolab.
Proof.
  intros H a b Ma Mb N. destruct (Z_lt_le_dec (f a b) (-1)) as [L|L]; [|exact L].
  assert (I : In (a, b, (- f a b)%Z) down) by (apply LB; repeat split; auto). apply H in I. congruence.
Qed.
Lemma edges_some u v : edge_inv down (Some (u, v)) -> onelab u v.
Proof.
  intros (I & Mu & H). destruct (label_in u v _ I Mu) as (Mv & N & L & E). repeat split; auto.
  - apply adjf_intro; auto. lia.
  - lia.
  - intros a b Ma Mb Nab Ne. destruct (Z_lt_le_dec (f a b) (-1)) as [L1|L1]; [|exact L1].
    exfalso. apply Ne. apply (H a b (- f a b)%Z); [|exact Ma]. apply LB. repeat split; auto.
Qed.

(** ** Linear diagrams *)
Section Linear.
Hypothesis D2 : forall x, mem Sp x = true -> D x <= 2.
Hypothesis Rk : 2 < rank.
Lemma line_case isD start : mem Sp start = true -> D start < 2 ->
  exists q, traverse (S rank) star isD start Sp [] = Ok (start :: q) /\ lists (start :: q) (mem Sp) /\ linear adj (start :: q).
Proof.
  intros M L.
  assert (Len : length (els Sp) <= S rank) by (rewrite rank_eq; lia).
  destruct (traverse_line star n adj adj_sym adj_irr ST isD (S rank) Sp start [] Sp32 Sn Len SC M) as (q & E & H1 & H2).
  - intros u Mu. apply D_thin; [exact Mu|]. apply D2. exact Mu.
  - apply D_leaf; assumption.
  - exists q. split; [exact E|]. split; assumption.
Qed.
Lemma line_end q a : lists q (mem Sp) -> linear adj q -> a < length q -> D (nth a q 0) < 2 -> a = 0 \/ a = length q - 1.
Proof.
  intros Ls Li Ha L. destruct (Nat.eq_dec a 0) as [|N0]; [auto|]. destruct (Nat.eq_dec a (length q - 1)) as [|N1]; [auto|]. exfalso.
  pose proof (D_ge (nth a q 0) [nth (a - 1) q 0; nth (a + 1) q 0] (at_mem q a Ls Ha)) as G. cbn [length] in G.
  assert (2 <= D (nth a q 0)); [apply G|lia].
  - constructor; [|repeat constructor; intros []]. intros [E|[]]. apply at_inj in E; try assumption; lia.
  - intros x [<-|[<-|[]]]; rewrite Li by lia; unfold line; apply orb_true_iff; rewrite !Nat.eqb_eq; lia.
Qed.
Lemma line_inner q a : lists q (mem Sp) -> linear adj q -> a < length q -> 2 <= D (nth a q 0) -> 0 < a < length q - 1.
Proof.
  intros Ls Li Ha L. pose proof (lists_length q Ls) as EL. rewrite D_eq in L.
  destruct (take2 (els (nth (nth a q 0) star 0%Z)) (els_nodup _) L) as (x & y & N & Ix & Iy).
  rewrite nb_in in Ix, Iy by (apply at_mem; assumption).
  destruct (idx q x Ls) as (i & Hi & Ei); [apply (SCl (nth a q 0)); [apply at_mem|]; assumption|].
  destruct (idx q y Ls) as (j & Hj & Ej); [apply (SCl (nth a q 0)); [apply at_mem|]; assumption|].
  subst x y. assert (i <> j) by congruence. rewrite Li in Ix, Iy by assumption. unfold line in Ix, Iy.
  apply orb_true_iff in Ix, Iy. rewrite !Nat.eqb_eq in Ix, Iy. lia.
Qed.
Lemma shape_A q : nolab -> lists q (mem Sp) -> linear adj q -> shape tA q.
Proof.
  intros NL Ls Li. apply shape_intro; [|discriminate|exact Ls|]; [cbn; rewrite (lists_length q Ls); lia|].
  intros a b Ha Hb N. assert (nth a q 0 <> nth b q 0) by (intros E; apply at_inj in E; auto).
  rewrite entry_simple by (try apply NL; try apply at_mem; assumption). rewrite Li by assumption.
  unfold std. rewrite (proj2 (Nat.eqb_neq a b)) by exact N. reflexivity.
Qed.
(** the labelled edge, at the end of the line or in its middle *)
Lemma shape_label X q i j : X <> tT -> onelab (nth i q 0) (nth j q 0) -> lists q (mem Sp) -> linear adj q -> valid_rank X (length q) ->
  i < length q -> j < length q ->
  (forall a b, a <> b -> std X (length q) a b = if is_pair i j a b then (-2)%Z else bond (line a b)) -> shape X q.
Proof.
  intros NT (_ & _ & Nuv & _ & E2 & OL) Ls Li V Hi Hj ES. apply shape_intro; auto.
  intros a b Ha Hb N. rewrite ES by exact N.
  assert (Ne : nth a q 0 <> nth b q 0) by (intros E; apply at_inj in E; auto).
  destruct (is_pair i j a b) eqn:P; unfold is_pair in P.
  - apply andb_true_iff in P as [P1 P2]. apply Nat.eqb_eq in P1, P2. subst a b. exact E2.
  - rewrite entry_simple; [rewrite Li by assumption; reflexivity|apply at_mem; assumption|apply at_mem; assumption|exact Ne|].
    apply OL; [apply at_mem; assumption|apply at_mem; assumption|exact Ne|].
    intros [= E3 E4]. apply at_inj in E4; auto. apply at_inj in E3; auto. subst. rewrite !Nat.eqb_refl in P. discriminate.
Qed.
Lemma shape_B q u v : onelab u v -> D v < 2 -> hd 0 q <> v -> lists q (mem Sp) -> linear adj q -> shape tB q.
Proof.
  intros O L H Ls Li. pose proof (lists_length q Ls) as EL. pose proof O as (Mu & Mv & _ & A & _).
  destruct (idx q u Ls Mu) as (i & Hi & <-). destruct (idx q v Ls Mv) as (j & Hj & <-).
  assert (Ej : j = length q - 1). { destruct (line_end q j Ls Li Hj L) as [->|]; [|assumption]. exfalso. apply H. destruct q; reflexivity. }
  assert (Ei : i = length q - 2). { rewrite Li in A by assumption. unfold line in A. apply orb_true_iff in A. rewrite !Nat.eqb_eq in A. lia. }
  apply (shape_label tB q i j); auto; [discriminate|cbn; lia|].
  intros a b N. unfold std. rewrite (proj2 (Nat.eqb_neq a b)) by exact N. rewrite Ei, Ej. reflexivity.
Qed.
Lemma shape_C q u v : onelab u v -> D u < 2 -> hd 0 q <> u -> lists q (mem Sp) -> linear adj q -> shape tC q.
Proof.
  intros O L H Ls Li. pose proof (lists_length q Ls) as EL. pose proof O as (Mu & Mv & _ & A & _).
  destruct (idx q u Ls Mu) as (i & Hi & <-). destruct (idx q v Ls Mv) as (j & Hj & <-).
  assert (Ej : i = length q - 1). { destruct (line_end q i Ls Li Hi L) as [->|]; [|assumption]. exfalso. apply H. destruct q; reflexivity. }
  assert (Ei : j = length q - 2). { rewrite Li in A by assumption. unfold line in A. apply orb_true_iff in A. rewrite !Nat.eqb_eq in A. lia. }
  apply (shape_label tC q i j); auto; [discriminate|cbn; lia|].
  intros a b N. unfold std. rewrite (proj2 (Nat.eqb_neq a b)) by exact N. rewrite Ei, Ej. reflexivity.
Qed.
Lemma shape_F q u v : onelab u v -> 2 <= D u -> 2 <= D v -> rank <= 4 -> adj v (hd 0 q) = false -> lists q (mem Sp) -> linear adj q -> shape tF q.
Proof.
  intros O Lu Lv R4 H Ls Li. pose proof (lists_length q Ls) as EL. pose proof O as (Mu & Mv & _ & A & _).
  destruct (idx q u Ls Mu) as (i & Hi & <-). destruct (idx q v Ls Mv) as (j & Hj & <-).
  pose proof (line_inner q i Ls Li Hi Lu) as Bi. pose proof (line_inner q j Ls Li Hj Lv) as Bj.
  rewrite Li in A by assumption. unfold line in A. apply orb_true_iff in A. rewrite !Nat.eqb_eq in A.
  assert (Nj : j <> 1).
  { intros ->. replace (hd 0 q) with (nth 0 q 0) in H by (destruct q; reflexivity). rewrite Li in H by lia. discriminate H. }
  assert (Ei : i = 1) by lia. assert (Ej : j = 2) by lia.
  apply (shape_label tF q i j); auto; [discriminate|cbn; lia|].
  intros a b N. unfold std. rewrite (proj2 (Nat.eqb_neq a b)) by exact N. rewrite Ei, Ej. reflexivity.
Qed.
End Linear.

(** ** Diagrams with a fork *)
Section Fork.
Variable g : nat.
Hypothesis Mg : mem Sp g = true.
Hypothesis Dg : D g = 3.
Hypothesis Do : forall x, mem Sp x = true -> x <> g -> D x <= 2.
Hypothesis NL : nolab.
Hypothesis Rk : 2 < rank.
Variable ext : Z.
Hypothesis E32 : is32 ext.
Hypothesis Eext : forall x, mem ext x = true <-> mem Sp x = true /\ D x < 2.
Hypothesis E2 : 2 <= length (els ext).

Lemma not_g x : D x < 2 -> x <> g.
Proof. intros L ->. lia. Qed.
Lemma leaves3 : 3 <= length (els ext).
Proof.
  assert (Hd : forall x, mem Sp x = true -> D x = deg adj (els Sp) x).
  { intros x M. rewrite D_eq. apply Permutation_length. apply NoDup_Permutation; [apply els_nodup|apply NoDup_filter, els_nodup|].
    intros y. rewrite filter_In. rewrite (nb_in x y M). rewrite (els_in Sp y Sp32). split; [|intros [_ H]; exact H].
    intros H. split; [|exact H]. apply (SCl x); assumption. }
  destruct (handshake adj adj_sym adj_irr (els Sp)) as (h & Hh).
  rewrite <- (degsum_ext (els Sp) D) in Hh by (intros x I; apply Hd; exact (proj1 (els_in Sp x Sp32) I)).
  assert (Q : degsum (els Sp) D + length (filter (fun x => D x <? 2) (els Sp)) = 2 * length (els Sp) + (if in_dec Nat.eq_dec g (els Sp) then 1 else 0)).
  { apply degsum_leaves; [apply els_nodup| | |exact Dg].
    - intros x I. apply (els_in Sp x Sp32) in I. apply D_pos; [lia|exact I].
    - intros x I. apply (els_in Sp x Sp32) in I. apply Do. exact I. }
  destruct (in_dec Nat.eq_dec g (els Sp)) as [_|H]; [|exfalso; apply H; exact (proj2 (els_in Sp g Sp32) Mg)].
  assert (P : length (filter (fun x => D x <? 2) (els Sp)) = length (els ext)).
  { apply Permutation_length. apply NoDup_Permutation; [apply NoDup_filter, els_nodup|apply els_nodup|].
    intros y. rewrite filter_In. rewrite (els_in ext y E32). rewrite (els_in Sp y Sp32). rewrite Eext, Nat.ltb_lt. reflexivity. }
  rewrite P in Q.
  lia.
Qed.

Lemma leaf_nbr x : mem Sp x = true -> D x < 2 -> adj g x = true -> forall y, adj x y = true <-> y = g.
Proof.
  intros M L A y. destruct (D_one x ltac:(lia) M L) as (a & Ha). rewrite adj_sym in A. rewrite Ha in A. subst a. apply Ha.
Qed.
Lemma fork_nbrs : exists a b d, a <> b /\ a <> d /\ b <> d /\ forall x, adj g x = true <-> x = a \/ x = b \/ x = d.
Proof.
  pose proof Dg as E. rewrite D_eq in E. destruct (len3 _ (els_nodup _) E) as (a & b & d & N1 & N2 & N3 & H).
  exists a, b, d. split; [exact N1|]. split; [exact N2|]. split; [exact N3|]. intros x. rewrite <- H. symmetry. apply nb_in. exact Mg.
Qed.
(** only two of the three neighbours of the fork are different from [z] *)
Lemma fork_thin (R : nat -> bool) z : adj g z = true -> R z = false -> thin adj R g.
Proof.
  intros A Z u v w Ru Rv Rw Eu Ev Ew. destruct fork_nbrs as (a & b & d & N1 & N2 & N3 & H).
  rewrite H in A, Eu, Ev, Ew. assert (u <> z) by congruence. assert (v <> z) by congruence. assert (w <> z) by congruence.
  clear - A Eu Ev Ew H0 H1 H2. destruct A as [->| [->| ->] ], Eu as [->| [->| ->] ], Ev as [->| [->| ->] ], Ew as [->| [->| ->] ]; auto; contradiction.
Qed.

Lemma fork_D start l1 l2 : mem Sp start = true -> D start < 2 -> start <> l1 -> start <> l2 ->
  mem Sp l1 = true -> mem Sp l2 = true -> D l1 < 2 -> D l2 < 2 -> adj g l1 = true -> adj g l2 = true -> l1 < l2 ->
  exists p, traverse (S rank) star true start Sp [] = Ok p /\ shape tD p.
Proof.
  intros Ms Ls N1 N2 M1 M2 L1 L2 A1 A2 Lt.
  destruct (nreset_ok Sp l2 Sp32) as [WR MR]; [apply Sn in M2; lia|].
  assert (EM : forall u, mem Sp u = (u =? l2) || mem (nreset Sp l2) u).
  { intros u. rewrite MR. destruct (Nat.eqb_spec u l2) as [->|]; [exact M2|reflexivity]. }
  assert (R2 : mem (nreset Sp l2) l2 = false) by (rewrite MR, Nat.eqb_refl; reflexivity).
  assert (InR : forall u, mem Sp u = true -> u <> l2 -> mem (nreset Sp l2) u = true).
  { intros u M N. rewrite MR, M. rewrite (proj2 (Nat.eqb_neq _ _)) by exact N. reflexivity. }
  assert (RSp : forall u, mem (nreset Sp l2) u = true -> mem Sp u = true).
  { intros u M. rewrite MR in M. apply andb_true_iff in M as [_ M]. exact M. }
  assert (Len : length (els Sp) <= S rank) by (rewrite rank_eq; lia).
  assert (C : connected adj (mem (nreset Sp l2))).
  { refine (connected_ext adj (without (mem Sp) l2) _ _ (connected_without adj adj_sym adj_irr _ _ SC M2 _)).
    - intros u. rewrite MR. reflexivity.
    - apply D_leaf; assumption. }
  destruct (traverse_fork star n adj adj_sym adj_irr ST g l1 l2 Lt (Sn _ M2) A1 A2
    (fun u H => proj1 (leaf_nbr l1 M1 L1 A1 u) H) (fun u H => proj1 (leaf_nbr l2 M2 L2 A2 u) H)
    (S rank) (nreset Sp l2) Sp start [] WR Sp32 EM R2 (fun u H => Sn u (RSp u H)) Len C) as (q & Et & Hd & Lq & Li).
  - apply InR; assumption.
  - apply InR; [exact Mg|]. intros E. apply (not_g l2); [exact L2|symmetry; exact E].
  - apply InR; [exact M1|lia].
  - exact N1.
  - intros u M. destruct (Nat.eq_dec u g) as [->|Nu].
    + apply (fork_thin _ l2); [exact A2|exact R2].
    + apply D_thin; [apply RSp; exact M|]. apply Do; [apply RSp; exact M|exact Nu].
  - apply D_leaf; assumption.
  - exists (q ++ [g; l1; l2]). split; [exact Et|].
    assert (Lp : lists (q ++ [g; l1; l2]) (mem Sp)).
    { replace (q ++ [g; l1; l2]) with ((q ++ [g; l1]) ++ [l2]) by (rewrite <- app_assoc; reflexivity).
      destruct Lq as [Nq Iq]. split.
      - apply (Permutation_NoDup (l := l2 :: q ++ [g; l1])); [apply Permutation_cons_append|].
        constructor; [|exact Nq]. rewrite Iq, R2. discriminate.
      - intros u. rewrite in_app_iff. rewrite Iq, EM. cbn [In]. rewrite orb_true_iff, Nat.eqb_eq. split; [intros [H|[H|[]]]; [right; exact H|left; symmetry; exact H]|].
        intros [H|H]; [right; left; symmetry; exact H|left; exact H]. }
    assert (Hq : 1 <= length q).
    { destruct q as [|x q]; [|cbn; lia]. cbn in Hd. exfalso. apply (not_g start); [exact Ls|symmetry; exact Hd]. }
    assert (LL : length (q ++ [g; l1; l2]) = length q + 3) by (rewrite app_length; reflexivity).
    assert (Last : nth (length q + 2) (q ++ [g; l1; l2]) 0 = l2) by (rewrite app_nth2 by lia; replace (length q + 2 - length q) with 2 by lia; reflexivity).
    assert (Gat : nth (length q) (q ++ [g; l1; l2]) 0 = g) by (rewrite app_nth2 by lia; replace (length q - length q) with 0 by lia; reflexivity).
    assert (Front : forall a, a < length q + 2 -> nth a (q ++ [g; l1; l2]) 0 = nth a (q ++ [g; l1]) 0).
    { intros a Ha. replace (q ++ [g; l1; l2]) with ((q ++ [g; l1]) ++ [l2]) by (rewrite <- app_assoc; reflexivity).
      apply app_nth1. rewrite app_length. cbn. lia. }
    assert (LL2 : length (q ++ [g; l1]) = length q + 2) by (rewrite app_length; reflexivity).
    set (p := q ++ [g; l1; l2]) in *.
    assert (AL : forall b, b < length p -> adj l2 (nth b p 0) = (b =? length q)).
    { intros b Hb. apply eq_true_iff_eq. rewrite (leaf_nbr l2 M2 L2 A2). rewrite Nat.eqb_eq. split; [|intros ->; exact Gat].
      intros E. rewrite <- Gat in E. apply (at_inj p _ _ Lp) in E; [exact E|exact Hb|lia]. }
    apply shape_intro; [|discriminate|exact Lp|]; [cbn; lia|].
    intros a b Ha Hb N. assert (Ne : nth a p 0 <> nth b p 0) by (intros E; apply (at_inj p _ _ Lp) in E; auto).
    rewrite entry_simple; [|apply at_mem; assumption|apply at_mem; assumption|exact Ne|apply NL; [apply at_mem; assumption|apply at_mem; assumption|exact Ne]].
    rewrite std_D by lia. f_equal. rewrite LL. replace (length q + 3 - 1) with (length q + 2) by lia. replace (length q + 3 - 3) with (length q) by lia.
    destruct (Nat.eqb_spec a (length q + 2)) as [->|Na]; [rewrite Last; apply AL; exact Hb|].
    destruct (Nat.eqb_spec b (length q + 2)) as [->|Nb]; [rewrite Last, adj_sym; apply AL; exact Ha|].
    rewrite !Front by lia. apply Li; lia.
Qed.

Lemma fork_E R s2 sh b : is32 R -> (forall u, mem R u = true <-> mem Sp u = true /\ u <> s2 /\ u <> sh) ->
  mem Sp s2 = true -> D s2 < 2 -> adj g s2 = false -> (forall x, mem Sp x = true /\ D x < 2 /\ adj g x = true <-> x = sh) ->
  adj s2 b = true -> adj g b = true -> rank <= 8 ->
  exists p, traverse (S rank) star false b R [s2; sh] = Ok p /\ shape tE p.
Proof.
  intros WR MR M2 L2 A2 Esh As2 Agb R8.
  destruct (proj2 (Esh sh) eq_refl) as (Msh & Lsh & Ash).
  assert (Nss : s2 <> sh) by (intros ->; congruence).
  assert (Mb : mem Sp b = true) by (apply (SCl g); assumption).
  assert (Ngb : b <> g) by (intros ->; rewrite adj_irr in Agb; discriminate).
  assert (N2 : forall y, adj s2 y = true <-> y = b).
  { destruct (D_one s2 ltac:(lia) M2 L2) as (a & Ha). rewrite Ha in As2. subst a. exact Ha. }
  pose proof (leaf_nbr sh Msh Lsh Ash) as Nsh.
  assert (Nb : forall y, adj b y = true <-> y = s2 \/ y = g).
  { pose proof (Do b Mb Ngb) as Lb. intros y. rewrite D_eq in Lb.
    assert (I1 : In s2 (els (nth b star 0%Z))) by (apply nb_in; [exact Mb|rewrite adj_sym; exact As2]).
    assert (I2 : In g (els (nth b star 0%Z))) by (apply nb_in; [exact Mb|rewrite adj_sym; exact Agb]).
    assert (s2 <> g) by (apply not_g; exact L2).
    destruct (Nat.eq_dec (length (els (nth b star 0%Z))) 2) as [E|E].
    - destruct (len2 _ (els_nodup _) E) as (u & v & Nuv & Huv). rewrite <- (nb_in b y Mb). rewrite Huv in *. clear - I1 I2 Nuv H.
      destruct I1 as [->| ->], I2 as [->| ->]; try contradiction; intuition.
    - exfalso. assert (length [s2; g] <= length (els (nth b star 0%Z))); [|cbn in *; lia]. apply sub_length.
      + repeat constructor; cbn; intuition.
      + intros x [<-|[<-|[]]]; assumption. }
  assert (bR : mem R b = true).
  { apply MR. split; [exact Mb|]. split; intros ->.
    - rewrite adj_irr in As2. discriminate.
    - assert (adj sh s2 = true) by (rewrite adj_sym; exact As2). apply Nsh in H. apply (not_g s2); assumption. }
  assert (gR : mem R g = true).
  { apply MR. split; [exact Mg|]. split; intros E; [apply (not_g s2)|apply (not_g sh)]; auto. }
  assert (C : connected adj (mem R)).
  { refine (connected_ext adj (without (without (mem Sp) s2) sh) _ _ (connected_without adj adj_sym adj_irr _ _ (connected_without adj adj_sym adj_irr _ _ SC M2 _) _ _)).
    - intros u. apply eq_true_iff_eq. rewrite MR. unfold without. rewrite !andb_true_iff, !negb_true_iff, !Nat.eqb_neq. clear. tauto.
    - apply D_leaf; assumption.
    - unfold without. rewrite Msh. rewrite (proj2 (Nat.eqb_neq _ _)) by (intros E; apply Nss; symmetry; exact E). reflexivity.
    - apply D_leaf; assumption. }
  assert (RSp : forall u, mem R u = true -> mem Sp u = true) by (intros u H; apply MR in H; apply H).
  assert (Len : length (els R) <= S rank).
  { rewrite rank_eq. apply le_S. apply sub_length; [apply els_nodup|]. intros x I. apply (els_in Sp x Sp32). apply RSp. exact (proj1 (els_in R x WR) I). }
  assert (shR : mem R sh = false) by (destruct (mem R sh) eqn:E; [exfalso; apply MR in E; destruct E as (_ & _ & E); apply E; reflexivity|reflexivity]).
  destruct (traverse_line star n adj adj_sym adj_irr ST false (S rank) R b [s2; sh] WR (fun u H => Sn u (RSp u H)) Len C bR) as (q' & Et & Lq & Li).
  - intros u M. destruct (Nat.eq_dec u g) as [->|Nu]; [apply (fork_thin _ sh); assumption|].
    apply D_thin; [apply RSp; exact M|]. apply Do; [apply RSp; exact M|exact Nu].
  - intros u v Ru Rv Eu Ev. apply Nb in Eu, Ev. apply MR in Ru as (_ & Nu & _). apply MR in Rv as (_ & Nv & _). destruct Eu, Ev; congruence.
  - set (q := b :: q') in *. exists (s2 :: sh :: q). split; [exact Et|].
    assert (Lp : lists (s2 :: sh :: q) (mem Sp)).
    { destruct Lq as [Nq Iq]. split.
      - constructor; [intros [E|H]; [apply Nss; symmetry; exact E|]|constructor; [|exact Nq]]; [apply Iq, MR in H; destruct H as (_ & H & _); apply H; reflexivity|].
        intros H. apply Iq, MR in H. destruct H as (_ & _ & H). apply H. reflexivity.
      - intros u. cbn [In]. rewrite Iq, MR. split; [intros [<-|[<-|H]]; [exact M2|exact Msh|apply H]|].
        intros H. destruct (Nat.eq_dec s2 u); [left; assumption|]. destruct (Nat.eq_dec sh u); [right; left; assumption|].
        right; right. repeat split; auto. }
    assert (Inq : forall x, mem R x = true -> exists k, k < length q /\ nth k q 0 = x) by (intros x H; apply Lq in H; apply In_nth; exact H).
    assert (Injq : forall i j, i < length q -> j < length q -> nth i q 0 = nth j q 0 -> i = j) by (apply NoDup_nth; apply Lq).
    assert (LN : forall i j, line i j = true <-> S i = j \/ S j = i) by (intros; unfold line; rewrite orb_true_iff, !Nat.eqb_eq; reflexivity).
    (* the fork is next *)
    destruct (Inq g gR) as (k1 & Hk1 & Ek1).
    assert (K1 : k1 = 1).
    { assert (A : adj (nth 0 q 0) (nth k1 q 0) = true) by (rewrite Ek1; cbn; rewrite adj_sym; exact Agb).
      rewrite Li in A by (cbn in *; lia). apply LN in A. lia. }
    subst k1.
    (* then a node that is not an end point *)
    destruct fork_nbrs as (x1 & x2 & x3 & Nx1 & Nx2 & Nx3 & Hx).
    assert (exists y, adj g y = true /\ y <> sh /\ y <> b) as (y & Ay & Ny1 & Ny2).
    { assert (Nbs : b <> sh) by (intros ->; congruence). rewrite Hx in Ash, Agb.
      pose proof (proj2 (Hx x1) ltac:(auto)). pose proof (proj2 (Hx x2) ltac:(auto)). pose proof (proj2 (Hx x3) ltac:(auto)).
      destruct (Nat.eq_dec x1 sh) as [E1|E1]; [destruct (Nat.eq_dec x2 b) as [E3|E3]; [exists x3|exists x2]; repeat split; auto; congruence|].
      destruct (Nat.eq_dec x1 b) as [E3|E3]; [|exists x1; auto].
      destruct (Nat.eq_dec x2 sh) as [E4|E4]; [exists x3|exists x2]; repeat split; auto; congruence. }
    assert (My : mem Sp y = true) by (apply (SCl g); assumption).
    assert (yR : mem R y = true) by (apply MR; repeat split; auto; intros ->; congruence).
    assert (Ly : 2 <= D y).
    { destruct (le_lt_dec 2 (D y)) as [|L]; [assumption|]. exfalso. apply Ny1. apply Esh. auto. }
    rewrite D_eq in Ly. destruct (take2 _ (els_nodup _) Ly) as (z1 & z2 & Nz & Iz1 & Iz2). rewrite nb_in in Iz1, Iz2 by exact My.
    assert (exists z, adj y z = true /\ z <> g) as (z & Az & Nzg).
    { destruct (Nat.eq_dec z1 g) as [->|]; [exists z2; auto|exists z1; auto]. }
    assert (zR : mem R z = true).
    { apply MR. split; [apply (SCl y); assumption|]. rewrite adj_sym in Az. split; intros ->.
      - apply N2 in Az. auto.
      - apply Nsh in Az. subst y. rewrite adj_irr in Ay. discriminate. }
    destruct (Inq y yR) as (k2 & Hk2 & Ek2).
    assert (K2 : k2 = 2).
    { assert (A : adj (nth 1 q 0) (nth k2 q 0) = true) by (rewrite Ek1, Ek2; exact Ay).
      rewrite Li in A by assumption. apply LN in A. destruct A as [A|A]; [lia|]. assert (k2 = 0) by lia. subst k2. cbn in Ek2. congruence. }
    subst k2. destruct (Inq z zR) as (k3 & Hk3 & Ek3).
    assert (K3 : k3 = 3).
    { assert (A : adj (nth 2 q 0) (nth k3 q 0) = true) by (rewrite Ek2, Ek3; exact Az).
      rewrite Li in A by assumption. apply LN in A. destruct A as [A|A]; [lia|]. assert (k3 = 1) by lia. subst k3. congruence. }
    subst k3. pose proof (lists_length _ Lp) as LL. cbn [length] in LL.
    set (p := s2 :: sh :: q) in *. assert (LP : length p = length q + 2) by (unfold p; cbn; lia).
    assert (Q0 : forall i, i < length q -> adj s2 (nth i q 0) = (i =? 0)).
    { intros i Hi. apply eq_true_iff_eq. rewrite N2, Nat.eqb_eq. split; [|intros ->; reflexivity].
      intros E. apply (Injq i 0); [exact Hi|lia|exact E]. }
    assert (Q1 : forall i, i < length q -> adj sh (nth i q 0) = (i =? 1)).
    { intros i Hi. apply eq_true_iff_eq. rewrite Nsh, Nat.eqb_eq. split; [|intros ->; exact Ek1].
      intros E. apply (Injq i 1); [exact Hi|lia|]. congruence. }
    assert (Q2 : adj s2 sh = false).
    { destruct (adj s2 sh) eqn:E; [|reflexivity]. rewrite adj_sym in E. apply Nsh in E. exfalso. apply (not_g s2); assumption. }
    apply shape_intro; [|discriminate|exact Lp|]; [unfold valid_rank; rewrite LP; lia|].
    intros i j Hi Hj N. assert (Ne : nth i p 0 <> nth j p 0) by (intros E; apply (at_inj p _ _ Lp) in E; auto).
    rewrite entry_simple; [|apply at_mem; assumption|apply at_mem; assumption|exact Ne|apply NL; [apply at_mem; assumption|apply at_mem; assumption|exact Ne]].
    rewrite std_E by lia. f_equal. unfold p. rewrite LP in Hi, Hj.
    destruct i as [|[|i]], j as [|[|j]]; cbn [nth pat_E]; try (exfalso; apply N; reflexivity).
    + exact Q2.
    + apply Q0. lia.
    + rewrite adj_sym. exact Q2.
    + apply Q1. lia.
    + rewrite adj_sym. apply Q0. lia.
    + rewrite adj_sym. apply Q1. lia.
    + apply Li; lia.
Qed.

Lemma fork_D' start u v : mem Sp start = true -> D start < 2 -> start <> u -> start <> v -> u <> v ->
  mem Sp u = true -> mem Sp v = true -> D u < 2 -> D v < 2 -> adj g u = true -> adj g v = true ->
  exists p, traverse (S rank) star true start Sp [] = Ok p /\ shape tD p.
Proof.
  intros Ms Ls N1 N2 Nuv Mu Mv Lu Lv Au Av. destruct (lt_dec u v) as [L|L].
  - apply (fork_D start u v); assumption.
  - apply (fork_D start v u); try assumption. lia.
Qed.
(** a star of three end points *)
Lemma fork_four u v w : u <> v -> u <> w -> v <> w ->
  (forall x, In x [u; v; w] -> mem Sp x = true /\ D x < 2 /\ adj g x = true) -> rank = 4.
Proof.
  intros N1 N2 N3 H. destruct (H u) as (Mu & Lu & Au); [left; reflexivity|]. destruct (H v) as (Mv & Lv & Av); [right; left; reflexivity|].
  destruct (H w) as (Mw & Lw & Aw); [right; right; left; reflexivity|].
  assert (Ng : forall y, adj g y = true -> In y [u; v; w]).
  { intros y Ay. destruct (in_dec Nat.eq_dec y [u; v; w]) as [I|I]; [exact I|]. exfalso.
    pose proof (D_ge g [y; u; v; w] Mg) as Q. cbn [length] in Q. assert (4 <= D g); [apply Q|lia].
    - constructor; [exact I|]. repeat constructor; cbn; intuition.
    - intros x [<-|Ix]; [exact Ay|apply H; exact Ix]. }
  assert (All : forall x, mem Sp x = true -> In x [g; u; v; w]).
  { apply (connected_closed adj (mem Sp) (fun x => In x [g; u; v; w]) g SC Mg); [left; reflexivity|].
    intros a b _ _ E [<-|I]; [right; apply Ng; exact E|]. left. symmetry. destruct (H a I) as (Ma & La & Aa).
    apply (leaf_nbr a Ma La Aa). exact E. }
  rewrite rank_eq. change 4 with (length [g; u; v; w]). apply Permutation_length. apply NoDup_Permutation; [apply els_nodup| |].
  - constructor; [|repeat constructor; cbn; intuition]. intros I. destruct (H g I) as (_ & L & _). lia.
  - intros x. rewrite (els_in Sp x Sp32). split; [apply All|]. intros [<-|I]; [exact Mg|apply H; exact I].
Qed.
Definition finish (t : found) : res (letter * list nat) :=
  run sp <- find_start star t rank Sp ext;
  let '(start, remain, pos) := sp in
  run p <- traverse (S rank) star (leqb (letter_of t) tD) start remain pos;
  Ok (letter_of t, p).
Definition good_result (tp : letter * list nat) : Prop := shape (fst tp) (snd tp) /\ fst tp <> tT.
Lemma fork_case :
  gives (run t <- find_type star (Some g) ext None; finish t) good_result (fun e => e = Thrown /\ reason).
Proof.
  pose proof leaves3 as L3. pose proof (Sn g Mg) as Hg.
  cbn [find_type]. rewrite (star_get star n adj ST g Hg). cbn [bind].
  pose proof (star_32 star n adj ST g Hg) as Wf. pose proof (fun j => star_mem star n adj ST g j Hg) as Mf.
  set (sf := nth g star 0%Z) in *.
  destruct (and_ok sf ext Wf E32) as [Wa Ma]. rewrite (ncount_ok _ Wa).
  assert (Ia : forall x, In x (els (and1 sf ext)) <-> mem Sp x = true /\ D x < 2 /\ adj g x = true).
  { intros x. rewrite (els_in _ x Wa), Ma, andb_true_iff, Mf, Eext. clear; tauto. }
  destruct (andnot_ok ext sf E32 Wf) as [We Me].
  assert (Ie : forall x, mem (andnot1 ext sf) x = true <-> mem Sp x = true /\ D x < 2 /\ adj g x = false).
  { intros x. rewrite Me, andb_true_iff, negb_true_iff, Mf, Eext. clear; tauto. }
  pose proof (els_split ext sf E32 Wf) as SPL.
  destruct (Nat.eqb_spec (length (els (and1 sf ext))) 1) as [C1|C1]; unfold finish; cbn [bind find_start letter_of leqb].
  - (* type E *)
    destruct (len1 _ C1) as (sh & Hsh).
    assert (Esh : forall x, mem Sp x = true /\ D x < 2 /\ adj g x = true <-> x = sh) by (intros x; rewrite <- Ia; apply Hsh).
    destruct (proj2 (Esh sh) eq_refl) as (Msh & Lsh & Ash).
    destruct (Nat.ltb_spec 8 rank) as [R8|R8]; [apply gives_fail; split; [reflexivity|]; apply (R_E g sh); assumption|].
    rewrite (star_get star n adj ST g Hg). cbn [bind]. fold sf.
    destruct (and_ok ext sf E32 Wf) as [Ws Msx].
    assert (Mshort : forall x, mem (and1 ext sf) x = true <-> x = sh).
    { intros x. rewrite <- Esh. rewrite Msx, andb_true_iff, Mf, Eext. clear; tauto. }
    destruct (andnot_ok ext _ E32 Ws) as [W1 M1].
    assert (I1 : forall x, mem (andnot1 ext (and1 ext sf)) x = true <-> mem Sp x = true /\ D x < 2 /\ adj g x = false).
    { intros x. rewrite M1, Msx, <- Ie, Me. destruct (mem ext x), (mem sf x); cbn; clear; intuition. }
    assert (L2 : 2 <= length (els (andnot1 ext (and1 ext sf)))).
    { assert (length (els (andnot1 ext (and1 ext sf))) = length (els (andnot1 ext sf))); [|lia].
      apply Permutation_length. apply NoDup_Permutation; [apply els_nodup|apply els_nodup|].
      intros x. rewrite (els_in _ x W1), (els_in _ x We), I1, Ie. reflexivity. }
    set (ext1 := andnot1 ext (and1 ext sf)) in *.
    destruct (take2 _ (els_nodup _) L2) as (e1 & e2 & Ne & Ie1 & Ie2). apply (els_in _ _ W1) in Ie1, Ie2.
    destruct (nfirst_ok ext1 e1 W1 Ie1) as (Ms & _ & _). set (start := nfirst ext1) in *.
    pose proof (proj1 (I1 start) Ms) as (Mst & Lst & Ast). pose proof (Sn _ Mst) as Hst.
    rewrite (star_get star n adj ST start Hst). cbn [bind].
    set (start2 := if none1 (and1 (nth start star 0%Z) sf) then nfirst (nreset ext1 start) else start).
    assert (Hmeet : forall x, mem Sp x = true -> none1 (and1 (nth x star 0%Z) sf) = true <-> forall y, adj x y = true -> adj g y = false).
    { intros x Mx. pose proof (Sn _ Mx) as Hx. destruct (and_ok _ sf (star_32 star n adj ST x Hx) Wf) as [Wx Mx2].
      rewrite none_any, negb_true_iff. rewrite (any_false _ Wx). split.
      - intros Q y Ay. specialize (Q y). rewrite Mx2, Mf, (star_mem star n adj ST x y Hx), Ay in Q. exact Q.
      - intros Q y. rewrite Mx2, Mf, (star_mem star n adj ST x y Hx). destruct (adj x y) eqn:A; [apply Q; exact A|reflexivity]. }
    assert (S2 : mem ext1 start2 = true /\ ((start2 = start /\ none1 (and1 (nth start star 0%Z) sf) = false) \/ (none1 (and1 (nth start star 0%Z) sf) = true /\ start2 <> start))).
    { unfold start2. destruct (none1 (and1 (nth start star 0%Z) sf)) eqn:Q; [|auto].
      destruct (nreset_ok ext1 start W1 ltac:(lia)) as [Wr Mr].
      assert (exists e, mem (nreset ext1 start) e = true) as (e & He).
      { destruct (Nat.eq_dec e1 start) as [E|E]; [exists e2|exists e1]; rewrite Mr; rewrite (proj2 (Nat.eqb_neq _ _)) by congruence; assumption. }
      destruct (nfirst_ok _ e Wr He) as (Q1 & _ & _). rewrite Mr in Q1. apply andb_true_iff in Q1 as [Q1 Q2].
      apply negb_true_iff, Nat.eqb_neq in Q1. auto. }
    clearbody start2. destruct S2 as [Ms2 S2]. pose proof (proj1 (I1 start2) Ms2) as (Mst2 & Lst2 & Ast2). pose proof (Sn _ Mst2) as Hst2.
    rewrite (star_get star n adj ST start2 Hst2). cbn [bind].
    destruct (none1 (and1 (nth start2 star 0%Z) sf)) eqn:Q.
    + apply gives_fail. split; [reflexivity|].
      destruct S2 as [[-> Q1]|[Q1 Nst]]; [congruence|].
      apply (R_arms g start2 start); auto. intros l [<-|[<-|[]]]; repeat split; auto; apply Hmeet; assumption.
    + destruct (and_ok _ sf (star_32 star n adj ST start2 Hst2) Wf) as [Wc Mc].
      rewrite none_any in Q. apply negb_false_iff in Q. apply (any_iff _ Wc) in Q as (y & Qy).
      destruct (nfirst_ok _ y Wc Qy) as (Qb & _ & _). cbn [bind]. set (b := nfirst (and1 (nth start2 star 0%Z) sf)) in *.
      rewrite Mc, Mf, (star_mem star n adj ST start2 b Hst2) in Qb. apply andb_true_iff in Qb as [Qb1 Qb2].
      destruct (nreset_ok Sp start2 Sp32 ltac:(lia)) as [Wr Mr]. destruct (andnot_ok _ _ Wr Ws) as [Wn Mn].
      assert (Fsh : nfirst (and1 ext sf) = sh).
      { destruct (nfirst_ok (and1 ext sf) sh Ws (proj2 (Mshort sh) eq_refl)) as (F & _ & _). apply Mshort. exact F. }
      rewrite Fsh.
      destruct (fork_E (andnot1 (nreset Sp start2) (and1 ext sf)) start2 sh b Wn) as (p & Ep & Sh); auto.
      * intros u. rewrite Mn, Mr. rewrite !andb_true_iff, !negb_true_iff, Nat.eqb_neq.
        assert (mem (and1 ext sf) u = false <-> u <> sh) as -> by (rewrite <- Mshort; destruct (mem (and1 ext sf) u); split; congruence). clear; tauto.
      * change (leqb tE tD) with false. rewrite Ep. apply gives_ok. split; [exact Sh|discriminate].
  - (* type D *)
    change (leqb tD tD) with true.
    destruct (Nat.eqb_spec rank 4) as [R4|R4]; cbn [bind].
    + destruct fork_nbrs as (a & b & d & Nab & Nad & Nbd & Hx).
      assert (Mn : forall x, adj g x = true -> mem Sp x = true) by (intros x A; apply (SCl g); assumption).
      assert (Ng : forall x, adj g x = true -> x <> g) by (intros x A ->; rewrite adj_irr in A; discriminate).
      assert (Aa : adj g a = true) by (apply Hx; auto). assert (Ab : adj g b = true) by (apply Hx; auto). assert (Ad : adj g d = true) by (apply Hx; auto).
      assert (All : forall x, mem Sp x = true -> In x [g; a; b; d]).
      { intros x Mx. apply (els_in Sp x Sp32) in Mx. revert x Mx.
        change (incl (els Sp) [g; a; b; d]). apply NoDup_length_incl.
        - constructor; [|repeat constructor; cbn; clear - Nab Nad Nbd; intuition]. intros [E|[E|[E|[]]]]; apply (Ng g); congruence.
        - rewrite <- rank_eq, R4. cbn. lia.
        - intros y [<-|[<-|[<-|[<-|[]]]]]; apply (els_in Sp _ Sp32); auto. }
      assert (Le : forall x, mem ext x = true -> In x [a; b; d]).
      { intros x Me1. apply Eext in Me1 as [Mx Lx]. destruct (All x Mx) as [E|I]; [|exact I]. exfalso. apply (not_g x Lx). symmetry. exact E. }
      assert (Le2 : forall x, In x [a; b; d] -> mem ext x = true).
      { intros x I. apply (els_in ext x E32). revert x I. change (incl [a; b; d] (els ext)). apply NoDup_length_incl; [apply els_nodup|cbn; lia|].
        intros y Iy. apply Le. exact (proj1 (els_in ext y E32) Iy). }
      assert (Mea : mem ext a = true) by (apply Le2; left; reflexivity).
      destruct (nfirst_ok ext a E32 Mea) as (Q & _ & _). set (start := nfirst ext) in *. clearbody start.
      pose proof (proj1 (Eext start) Q) as [Ms Ls]. pose proof (Le start Q) as Is.
      assert (exists u v, In u [a; b; d] /\ In v [a; b; d] /\ u <> v /\ start <> u /\ start <> v) as (u & v & Iu & Iv & Nuv & Nu & Nv).
      { destruct Is as [<-|[<-|[<-|[]]]]; [exists b, d|exists a, d|exists a, b]; cbn; repeat split; auto. }
      assert (Ag : forall x, In x [a; b; d] -> adj g x = true) by (intros x [<-|[<-|[<-|[]]]]; assumption).
      pose proof (proj1 (Eext u) (Le2 u Iu)) as [Mu Lu]. pose proof (proj1 (Eext v) (Le2 v Iv)) as [Mv Lv].
      destruct (fork_D' start u v) as (p & Ep & Sh); auto.
      rewrite Ep. apply gives_ok. split; [exact Sh|discriminate].
    + rewrite (star_get star n adj ST g Hg). cbn [bind]. fold sf. rewrite (ncount_ok _ We).
      destruct (Nat.ltb_spec 1 (length (els (andnot1 ext sf)))) as [C2|C2].
      * apply gives_fail. split; [reflexivity|].
        destruct (take2 _ (els_nodup _) C2) as (u & v & Nuv & Iu & Iv). apply (els_in _ _ We) in Iu, Iv.
        apply (R_no_arm g u v); auto; [intros l [<-|[<-|[]]]; apply Ie; assumption|].
        intros (x & Hx). apply C1.
        assert (P : Permutation (els (and1 sf ext)) [x]); [|apply Permutation_length in P; exact P].
        apply NoDup_Permutation; [apply els_nodup|repeat constructor; intros []|].
        intros y. rewrite Ia, Hx. cbn. split; [auto|]. intros [E|[]]; auto.
      * assert (C3 : 1 <= length (els (andnot1 ext sf))).
        { destruct (le_lt_dec 1 (length (els (andnot1 ext sf)))) as [|C3]; [assumption|]. exfalso. apply R4.
          destruct (take3 (els (and1 sf ext)) (els_nodup _) ltac:(lia)) as (u & v & w & N1 & N2 & N3 & I1 & I2 & I3).
          apply (fork_four u v w); auto. intros x [<-|[<-|[<-|[]]]]; apply Ia; assumption. }
        destruct (take1 _ C3) as (e & Ie1). apply (els_in _ _ We) in Ie1.
        destruct (nfirst_ok _ e We Ie1) as (Q & _ & _). cbn [bind]. set (start := nfirst (andnot1 ext sf)) in *. clearbody start.
        apply Ie in Q as (Ms & Ls & As).
        destruct (take2 (els (and1 sf ext)) (els_nodup _) ltac:(lia)) as (u & v & Nuv & Iu & Iv).
        apply Ia in Iu as (Mu & Lu & Au). apply Ia in Iv as (Mv & Lv & Av).
        destruct (fork_D' start u v) as (p & Ep & Sh); auto; [congruence|congruence|].
        rewrite Ep. apply gives_ok. split; [exact Sh|discriminate].
Qed.
End Fork.

(** ** At most two nodes *)
Lemma shape2 X i j : X <> tT -> valid_rank X 2 -> lists [i; j] (mem Sp) -> f i j = std X 2 0 1 -> f j i = std X 2 1 0 -> shape X [i; j].
Proof.
  intros NT V Ls E1 E2. apply shape_intro; auto. intros a b Ha Hb N. cbn [length] in *.
  destruct a as [|[|a]], b as [|[|b]]; try lia; cbn [nth]; assumption.
Qed.

(** ** The whole classification of a component *)
Hypothesis NE : exists u, mem Sp u = true.
Theorem classify_comp_ok : gives (classify_comp c star down Sp) good_result (fun e => e = Thrown /\ reason).
Proof.
  unfold classify_comp. rewrite (ncount_ok Sp Sp32), <- rank_eq.
  assert (R1 : 1 <= rank).
  { destruct NE as (u & M). rewrite rank_eq. apply (els_in Sp u Sp32) in M. destruct (els Sp); [destruct M|cbn; lia]. }
  destruct (Nat.leb_spec rank 2) as [R2|R2].
  - destruct (Nat.eqb_spec rank 1) as [E1|E1].
    + apply gives_ok. split; [|discriminate]. destruct NE as (u & M). destruct (nfirst_ok Sp u Sp32 M) as (Q & _ & _).
      rewrite rank_eq in E1. destruct (len1 _ E1) as (a & Ha).
      apply shape_intro; [cbn; lia|discriminate| |].
      * cbn [snd]. split; [repeat constructor; intros []|]. intros v. rewrite <- (els_in Sp v Sp32). rewrite Ha.
        assert (nfirst Sp = a) as -> by (apply Ha; apply (els_in Sp _ Sp32); exact Q). cbn. split; [intros [->|[]]; reflexivity|auto].
      * cbn [snd length]. intros a0 b0 H1 H2 N. lia.
    + assert (E2 : rank = 2) by lia. rewrite (nlist_ok Sp Sp32). pose proof E2 as E3. rewrite rank_eq in E3.
      pose proof (els_nodup Sp) as ND. destruct (els Sp) as [|i [|j [|k l]]] eqn:EL; try (cbn in E3; lia).
      assert (Ls : lists [i; j] (mem Sp)) by (split; [exact ND|]; intros v; rewrite <- EL; apply els_in; exact Sp32).
      assert (Ls2 : lists [j; i] (mem Sp)).
      { destruct Ls as [_ Ls]. split; [|intros v; rewrite <- Ls; cbn; clear; tauto]. inversion ND as [|? ? Q1 Q2]. subst.
        constructor; [|repeat constructor; intros []]. intros [->|[]]. apply Q1. left. reflexivity. }
      assert (Mi : mem Sp i = true) by (apply Ls; left; reflexivity). assert (Mj : mem Sp j = true) by (apply Ls; right; left; reflexivity).
      assert (Nij : i <> j) by (inversion ND as [|? ? Q1 Q2]; intros ->; apply Q1; left; reflexivity).
      assert (A : adj i j = true).
      { destruct (connected_nbr adj (mem Sp) i j SC Mi Mj Nij) as (u & Mu & A). apply Ls in Mu as [<-|[<-|[]]]; [rewrite adj_irr in A; discriminate|exact A]. }
      assert (A' : adj j i = true) by (rewrite adj_sym; exact A).
      apply adjf_lt in A as (_ & _ & _ & Z1). apply adjf_lt in A' as (_ & _ & _ & Z2).
      pose proof (Sn _ Mi) as Hi. pose proof (Sn _ Mj) as Hj.
      destruct RD as ((_ & O & _) & B3).
      pose proof (O i j Hi Hj Nij). pose proof (O j i Hj Hi ltac:(auto)). pose proof (B3 i j Hi Hj Nij). pose proof (B3 j i Hj Hi ltac:(auto)).
      apply (bind_mget c n n f i j _ _ MX Hi Hj). apply (bind_mget c n n f j i _ _ MX Hj Hi).
      assert (Ex : (f i j = -1 \/ f i j = -2 \/ f i j = -3)%Z) by lia. assert (Ey : (f j i = -1 \/ f j i = -2 \/ f j i = -3)%Z) by lia.
      assert (Thr : (f i j * f j i <> 1)%Z -> (f i j * f j i <> 2)%Z -> (f i j * f j i <> 3)%Z -> gives (Fail Thrown) good_result (fun e => e = Thrown /\ reason)).
      { intros. apply gives_fail. split; [reflexivity|]. apply (R_product i j); assumption. }
      destruct Ex as [X|[X|X]], Ey as [Y|[Y|Y]]; rewrite X, Y in Thr |- *; cbn -[gives];
        first [apply Thr; lia | apply gives_ok; split; [|discriminate]; apply shape2; auto; try discriminate; cbn; lia].
  - rewrite (nlist_ok Sp Sp32).
    apply gives_bind with (P := node_inv (els Sp)).
    { apply (scan_nodes_ok (els Sp) [] None 0%Z); cbn [app].
      - intros x I. exact (proj1 (els_in Sp x Sp32) I).
      - apply els_nodup.
      - split; [exact is32_0|]. split; [|intros x []]. intros x. cbn [snd]. rewrite mem_0. split; [discriminate|intros [[] _]]. }
    intros [fork ext] (We & Me & Fk). cbn [fst snd] in *.
    assert (Mext : forall x, mem ext x = true <-> mem Sp x = true /\ D x < 2).
    { intros x. rewrite Me. rewrite (els_in Sp x Sp32). reflexivity. }
    rewrite (ncount_ok ext We). destruct (Nat.ltb_spec (length (els ext)) 2) as [L2|L2].
    { apply gives_fail. split; [reflexivity|]. apply R_loop; [exact R2|]. intros u v Mu Mv Du Dv.
      destruct (Nat.eq_dec u v) as [E|N]; [exact E|]. exfalso.
      assert (length [u; v] <= length (els ext)); [|cbn in *; lia]. apply sub_length.
      - constructor; [|repeat constructor; intros []]. intros [E|[]]. apply N. symmetry. exact E.
      - intros x [<-|[<-|[]]]; apply (els_in ext _ We); apply Mext; auto. }
    apply gives_bind with (P := edge_inv down).
    { apply (scan_edges_ok down R2 [] None); [reflexivity|]. intros a b l []. }
    intros [[u v]|] EI.
    + (* a labelled edge *)
      pose proof (edges_some u v EI) as O. pose proof O as (Mu & Mv & Nuv & Auv & Euv & _).
      cbn [find_type]. destruct fork as [g|].
      { apply gives_fail. split; [reflexivity|]. destruct Fk as (Ig & Dg & _).
        apply (R_both g u v); auto; [exact (proj1 (els_in Sp g Sp32) Ig)|lia]. }
      assert (D2 : forall x, mem Sp x = true -> D x <= 2) by (intros x Mx; apply Fk; exact (proj2 (els_in Sp x Sp32) Mx)).
      destruct (take2 _ (els_nodup ext) L2) as (e1 & e2 & Ne & Ie1 & Ie2). apply (els_in ext _ We) in Ie1, Ie2.
      assert (Other : forall w, exists e, mem ext e = true /\ e <> w).
      { intros w. destruct (Nat.eq_dec e1 w) as [->|]; [exists e2; auto|exists e1; auto]. }
      cbn [bind]. rewrite !ntest_ok. destruct (mem ext v) eqn:Ev; [|destruct (mem ext u) eqn:Eu].
      * cbn [find_start bind letter_of]. change (leqb tB tD) with false. pose proof (Sn _ Mv) as Hv.
        destruct (nreset_ok ext v We ltac:(lia)) as [Wr Mr]. destruct (Other v) as (e & He & Nev).
        assert (He' : mem (nreset ext v) e = true) by (rewrite Mr, He, (proj2 (Nat.eqb_neq _ _) Nev); reflexivity).
        destruct (nfirst_ok _ e Wr He') as (Q & _ & _). rewrite Mr in Q. apply andb_true_iff in Q as [Q1 Q2]. apply negb_true_iff, Nat.eqb_neq in Q1.
        apply Mext in Q2 as [Ms Ls].
        destruct (line_case D2 R2 false _ Ms Ls) as (q & Et & Lq & Li). rewrite Et. apply gives_ok. split; [|discriminate].
        apply Mext in Ev as [_ Lv]. cbn [fst snd]; apply (shape_B R2 _ u v O Lv); [exact Q1|exact Lq|exact Li].
      * cbn [find_start bind letter_of]. change (leqb tC tD) with false. pose proof (Sn _ Mu) as Hu.
        destruct (nreset_ok ext u We ltac:(lia)) as [Wr Mr]. destruct (Other u) as (e & He & Nev).
        assert (He' : mem (nreset ext u) e = true) by (rewrite Mr, He, (proj2 (Nat.eqb_neq _ _) Nev); reflexivity).
        destruct (nfirst_ok _ e Wr He') as (Q & _ & _). rewrite Mr in Q. apply andb_true_iff in Q as [Q1 Q2]. apply negb_true_iff, Nat.eqb_neq in Q1.
        apply Mext in Q2 as [Ms Ls].
        destruct (line_case D2 R2 false _ Ms Ls) as (q & Et & Lq & Li). rewrite Et. apply gives_ok. split; [|discriminate].
        apply Mext in Eu as [_ Lu]. cbn [fst snd]; apply (shape_C R2 _ u v O Lu); [exact Q1|exact Lq|exact Li].
      * cbn [find_start bind letter_of]. change (leqb tF tD) with false. pose proof (Sn _ Mv) as Hv.
        assert (Du : 2 <= D u). { destruct (le_lt_dec 2 (D u)) as [|L]; [assumption|]. rewrite (proj2 (Mext u) (conj Mu L)) in Eu. discriminate. }
        assert (Dv : 2 <= D v). { destruct (le_lt_dec 2 (D v)) as [|L]; [assumption|]. rewrite (proj2 (Mext v) (conj Mv L)) in Ev. discriminate. }
        destruct (Nat.ltb_spec 4 rank) as [R4|R4].
        { apply gives_fail. split; [reflexivity|]. apply (R_F u v); auto. lia. }
        rewrite (star_get star n adj ST v Hv). cbn [bind].
        destruct (andnot_ok ext _ We (star_32 star n adj ST v Hv)) as [Wn Mn].
        assert (Mn' : forall x, mem (andnot1 ext (nth v star 0%Z)) x = mem ext x && negb (adj v x)).
        { intros x. rewrite Mn. rewrite (star_mem star n adj ST v x Hv). reflexivity. }
        assert (exists e, mem (andnot1 ext (nth v star 0%Z)) e = true) as (e & He).
        { destruct (adj v e1) eqn:A1; [|exists e1; rewrite Mn', Ie1, A1; reflexivity].
          destruct (adj v e2) eqn:A2; [|exists e2; rewrite Mn', Ie2, A2; reflexivity].
          exfalso. pose proof (D_ge v [u; e1; e2] Mv) as G. cbn [length] in G. pose proof (D2 v Mv). assert (3 <= D v); [apply G|lia].
          - constructor; [intros [E|[E|[]]]; subst; congruence|]. constructor; [intros [E|[]]; apply Ne; symmetry; exact E|repeat constructor; intros []].
          - intros x [<-|[<-|[<-|[]]]]; auto. rewrite adj_sym. exact Auv. }
        destruct (nfirst_ok _ e Wn He) as (Q & _ & _). rewrite Mn' in Q. apply andb_true_iff in Q as [Q2 Q1]. apply negb_true_iff in Q1.
        apply Mext in Q2 as [Ms Ls].
        destruct (line_case D2 R2 false _ Ms Ls) as (q & Et & Lq & Li). rewrite Et. apply gives_ok. split; [|discriminate].
        cbn [fst snd]; apply (shape_F R2 _ u v O Du Dv R4); [exact Q1|exact Lq|exact Li].
    + (* no labels *)
      pose proof (edges_none EI) as NL. destruct fork as [g|].
      * destruct Fk as (Ig & Dg & Fk). apply (els_in Sp g Sp32) in Ig.
        apply (fork_case g Ig Dg); auto. intros x Mx Nx. apply Fk; [exact (proj2 (els_in Sp x Sp32) Mx)|exact Nx].
      * assert (D2 : forall x, mem Sp x = true -> D x <= 2) by (intros x Mx; apply Fk; exact (proj2 (els_in Sp x Sp32) Mx)).
        cbn [find_type bind find_start letter_of]. change (leqb tA tD) with false.
        destruct (take2 _ (els_nodup ext) L2) as (e1 & e2 & Ne & Ie1 & Ie2). apply (els_in ext _ We) in Ie1, Ie2.
        destruct (nfirst_ok _ e1 We Ie1) as (Q & _ & _). apply Mext in Q as [Ms Ls].
        destruct (line_case D2 R2 false _ Ms Ls) as (q & Et & Lq & Li). rewrite Et. apply gives_ok. split; [|discriminate].
        apply (shape_A R2 _ NL Lq Li).
Qed.
End Class.
