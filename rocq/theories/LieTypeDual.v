(** Duals of layouts and of inner class letters; involutions of simple types. *)

From Coq Require Import List Arith ZArith Bool Lia Permutation.
From Verif Require Import VecModel VecProofs RunModel RunProofs MatModel MatSpec MatProofs MatLin MatArith MatOps RedGcd
  LieTypeModel LieTypeSpec LieTypeProofs LieTypeInv LieTypeInner.
Import ListNotations.
Local Open Scope nat_scope.

(** tests without a test inside, decided when possible *)
Ltac flat a := lazymatch a with context [if _ then _ else _] => fail | _ => idtac end.
Ltac decide_tests := repeat (
  match goal with
  | |- context [Nat.leb ?a ?b] => flat a; flat b;
    first [rewrite (proj2 (Nat.leb_le a b)) by lia | rewrite (proj2 (Nat.leb_gt a b)) by lia | destruct (Nat.leb_spec a b)]
  | |- context [Nat.ltb ?a ?b] => flat a; flat b;
    first [rewrite (proj2 (Nat.ltb_lt a b)) by lia | rewrite (proj2 (Nat.ltb_ge a b)) by lia | destruct (Nat.ltb_spec a b)]
  | |- context [Nat.eqb ?a ?b] => flat a; flat b;
    first [rewrite (proj2 (Nat.eqb_eq a b)) by lia | rewrite (proj2 (Nat.eqb_neq a b)) by lia | destruct (Nat.eqb_spec a b)]
  end; cbn [andb orb fst snd]; rewrite ?andb_false_r, ?orb_true_r); try reflexivity; try lia.

(** ** Permutations *)
Lemma permutes_intro n l : length l = n -> (forall i, i < n -> nth i l 0 < n) ->
  (forall i j, i < n -> j < n -> nth i l 0 = nth j l 0 -> i = j) -> permutes n l.
Proof.
  intros L B J. unfold permutes. apply NoDup_Permutation_bis.
  - apply (NoDup_nth l 0). intros i j Hi Hj. apply J; lia.
  - rewrite seq_length. lia.
  - intros x I1. apply (In_nth _ _ 0) in I1. destruct I1 as (i & Hi & <-). apply in_seq. split; [lia|]. apply B. lia.
Qed.
Lemma nth_get {A} (v : list A) i d : nth i v d = match get v i with Some x => x | None => d end.
Proof. revert i. induction v as [|x v IH]; intros [|i]; try reflexivity. apply IH. Qed.
Lemma vput_at {A} (v : list A) i x d : i < length v ->
  gives (vput v i x) (fun w => length w = length v /\ forall t, nth t w d = if t =? i then x else nth t v d) never.
Proof.
  intros H. apply gives_vput; [exact H|]. intros w L G. split; [exact L|]. intros t. rewrite !nth_get, G. destruct (t =? i); reflexivity.
Qed.
Lemma vswap_ok v i j : i < length v -> j < length v ->
  gives (vswap v i j) (fun w => length w = length v /\ forall t, nth t w 0 = nth (if t =? j then i else if t =? i then j else t) v 0) never.
Proof.
  intros Hi Hj. unfold vswap. rewrite (vget_at v i 0 Hi), (vget_at v j 0 Hj). cbn [bind].
  eapply gives_bind; [apply (vput_at v i _ 0 Hi)|]. intros w [L G]. eapply gives_mono; [apply (vput_at w j _ 0); lia|].
  intros w1 [L1 G1]. split; [lia|]. intros t. rewrite G1, G. destruct (t =? j); [reflexivity|]. destruct (t =? i); reflexivity.
Qed.

(** ** Duals of the factors *)
Definition dual_simple (s : simple) : simple := (match fst s with tB => tC | tC => tB | X => X end, snd s).
Definition turn (X : letter) (r i : nat) : nat := match X with tF | tG => r - 1 - i | _ => i end.
Fixpoint flip (lt : lietype) (i : nat) : nat :=
  match lt with
  | [] => i
  | (X, r) :: rest => if i <? r then turn X r i else r + flip rest (i - r)
  end.
Lemma turn_bound X r i : i < r -> turn X r i < r.
Proof. intros H. destruct X; cbn; lia. Qed.
Lemma turn_inv X r i : i < r -> turn X r (turn X r i) = i.
Proof. intros H. destruct X; cbn; lia. Qed.
Lemma flip_bound lt i : i < total lt -> flip lt i < total lt.
Proof.
  revert i. induction lt as [|[X r] lt IH]; intros i Hi; cbn [total flip snd] in *; [exact Hi|].
  destruct (Nat.ltb_spec i r) as [L|L]; [pose proof (turn_bound X r i L); lia|]. specialize (IH (i - r) ltac:(lia)). lia.
Qed.
Lemma flip_inv lt i : i < total lt -> flip lt (flip lt i) = i.
Proof.
  revert i. induction lt as [|[X r] lt IH]; intros i Hi; cbn [total flip snd] in *; [reflexivity|].
  destruct (Nat.ltb_spec i r) as [L|L].
  - rewrite (proj2 (Nat.ltb_lt _ _) (turn_bound X r i L)). apply turn_inv, L.
  - rewrite (proj2 (Nat.ltb_ge (r + _) r)) by lia. replace (r + flip lt (i - r) - r) with (flip lt (i - r)) by lia. rewrite IH by lia. lia.
Qed.
Definition plain (lt : lietype) : Prop := Forall (fun s => fst s <> tf /\ fst s <> tg) lt.
Lemma std_turn X r i j : X <> tf -> X <> tg -> valid_rank X r -> i < r -> j < r ->
  std (fst (dual_simple (X, r))) r i j = std X r (turn X r j) (turn X r i).
Proof.
  intros N1 N2 V Hi Hj. destruct X; cbn [dual_simple fst turn] in *; try congruence; try (symmetry; apply (std_dual _ r _ _ V) || (rewrite <- (std_dual _ r _ _ V); reflexivity)).
  - cbn in V. subst r. do 4 (destruct i as [|i]; [do 4 (destruct j as [|j]; [reflexivity|]); lia|]). lia.
  - cbn in V. subst r. do 2 (destruct i as [|i]; [do 2 (destruct j as [|j]; [reflexivity|]); lia|]). lia.
Qed.
Lemma block_flip lt : plain lt -> valid_type lt -> forall i j, i < total lt -> j < total lt ->
  block_diagonal (map dual_simple lt) i j = block_diagonal lt (flip lt j) (flip lt i).
Proof.
  induction lt as [|[X r] lt IH]; intros PL V i j Hi Hj; [reflexivity|]. inversion V as [|? ? V1 V2]. inversion PL as [|? ? [P1 P3] P2]. subst.
  cbn [map block_diagonal flip total snd fst dual_simple] in *. specialize (IH P2 V2).
  destruct (Nat.ltb_spec i r) as [Li|Li], (Nat.ltb_spec j r) as [Lj|Lj]; cbn [andb orb].
  - rewrite (proj2 (Nat.ltb_lt _ _) (turn_bound X r i Li)), (proj2 (Nat.ltb_lt _ _) (turn_bound X r j Lj)). cbn [andb].
    pose proof (std_turn X r i j P1 P3 V1 Li Lj) as E. unfold simple_matrix. cbn [fst snd dual_simple] in *. destruct X; try exact E; reflexivity.
  - rewrite (proj2 (Nat.ltb_lt _ _) (turn_bound X r i Li)), (proj2 (Nat.ltb_ge (r + _) r)) by lia. reflexivity.
  - rewrite (proj2 (Nat.ltb_lt _ _) (turn_bound X r j Lj)), (proj2 (Nat.ltb_ge (r + _) r)) by lia. reflexivity.
  - rewrite !(proj2 (Nat.ltb_ge (r + _) r)) by lia. cbn [andb orb]. rewrite IH by lia. f_equal; lia.
Qed.
Lemma dual_valid_type lt : valid_type lt -> valid_type (map dual_simple lt) /\ total (map dual_simple lt) = total lt.
Proof.
  induction lt as [|[X r] lt IH]; intros V; [split; [exact V|reflexivity]|]. inversion V as [|? ? V1 V2]. subst. destruct (IH V2) as [A B].
  split; [|cbn [map total dual_simple fst snd]; rewrite B; reflexivity]. constructor; [|exact A]. cbn [fst snd dual_simple] in *. destruct X; exact V1.
Qed.
Lemma dual_factors_ok lt : valid_type lt -> forall k pi, k + total lt <= length pi ->
  gives (dual_factors lt k pi) (fun q => fst q = map dual_simple lt /\ length (snd q) = length pi /\
    forall t, nth t (snd q) 0 = nth (if (k <=? t) && (t <? k + total lt) then k + flip lt (t - k) else t) pi 0) never.
Proof.
  induction lt as [|[X r] lt IH]; intros V k pi L.
  - cbn [dual_factors gives fst snd map]. split; [reflexivity|]. split; [reflexivity|]. intros t. cbn [total]. rewrite Nat.add_0_r.
    destruct (Nat.leb_spec k t), (Nat.ltb_spec t k); try lia; reflexivity.
  - inversion V as [|? ? V1 V2]. subst. cbn [dual_factors total fst snd] in *.
    apply gives_bind with (P := fun p1 => length p1 = length pi /\ forall t, nth t p1 0 = nth (if (k <=? t) && (t <? k + r) then k + turn X r (t - k) else t) pi 0).
    + assert (Triv : X <> tF -> X <> tG -> gives (Ok pi) (fun p1 => length p1 = length pi /\ forall t, nth t p1 0 = nth (if (k <=? t) && (t <? k + r) then k + turn X r (t - k) else t) pi 0) never).
      { intros N1 N2. split; [reflexivity|]. intros t. f_equal. destruct (Nat.leb_spec k t), (Nat.ltb_spec t (k + r)); cbn [andb]; try reflexivity.
        destruct X; cbn [turn]; try congruence; lia. }
      destruct X; try (apply Triv; discriminate); cbn in V1; subst r; clear Triv.
      * eapply gives_bind; [apply vswap_ok; lia|]. intros w [L1 G1]. eapply gives_mono; [apply vswap_ok; lia|]. intros w1 [L2 G2]. split; [lia|].
        intros t. rewrite G2, G1. f_equal. cbn [turn].
        destruct (Nat.leb_spec k t), (Nat.ltb_spec t (k + 4)); cbn [andb].
        -- assert (Q : t = k \/ t = k + 1 \/ t = k + 2 \/ t = k + 3) by lia. destruct Q as [->| [->| [->| ->] ] ]; decide_tests.
        -- decide_tests.
        -- decide_tests.
        -- decide_tests.
      * eapply gives_mono; [apply vswap_ok; lia|]. intros w1 [L2 G2]. split; [lia|].
        intros t. rewrite G2. f_equal. cbn [turn].
        destruct (Nat.leb_spec k t), (Nat.ltb_spec t (k + 2)); cbn [andb].
        -- assert (Q : t = k \/ t = k + 1) by lia. destruct Q as [->| ->]; decide_tests.
        -- decide_tests.
        -- decide_tests.
        -- decide_tests.
    + intros p1 [L1 G1]. eapply gives_bind; [apply (IH V2 (k + r) p1); lia|]. intros q (Q1 & Q2 & Q3). cbn [gives fst snd map].
      split; [rewrite Q1; destruct X; reflexivity|]. split; [lia|]. intros t. rewrite Q3, G1. f_equal. cbn [flip].
      destruct (Nat.leb_spec k t) as [A1|A1]; cbn [andb].
      * destruct (Nat.ltb_spec t (k + (r + total lt))) as [A2|A2].
        -- destruct (Nat.ltb_spec (t - k) r) as [A3|A3].
           ++ rewrite (proj2 (Nat.leb_gt (k + r) t)) by lia. cbn [andb]. rewrite (proj2 (Nat.leb_le k t)), (proj2 (Nat.ltb_lt t (k + r))) by lia. reflexivity.
           ++ rewrite (proj2 (Nat.leb_le (k + r) t)), (proj2 (Nat.ltb_lt t (k + r + total lt))) by lia. cbn [andb].
              rewrite (proj2 (Nat.ltb_ge (k + r + _) (k + r))) by lia. rewrite andb_false_r. replace (t - (k + r)) with (t - k - r) by lia. lia.
        -- rewrite (proj2 (Nat.ltb_ge t (k + r + total lt))) by lia. rewrite andb_false_r. rewrite (proj2 (Nat.ltb_ge t (k + r))) by lia. rewrite andb_false_r. reflexivity.
      * rewrite (proj2 (Nat.leb_gt (k + r) t)) by lia. cbn [andb]. rewrite (proj2 (Nat.leb_gt k t)) by lia. reflexivity.
Qed.

(** ** Duals of the letters *)
Definition after (m1 m2 : nat -> nat * Z) (i : nat) : nat * Z := (fst (m2 (fst (m1 i))), (snd (m1 i) * snd (m2 (fst (m1 i))))%Z).
Definition split_of (lt : lietype) : list icl := map (fun _ => is) lt.
Definition dual_letter_of (x : icl) (X : letter) (r : nat) : icl :=
  if match X with tA => 1 <? r | tD => Nat.odd r | tE => r =? 6 | tT => true | _ => false end then match x with ic => is | is => ic | _ => x end else x.
Lemma dual_inner_cons x ict X r lt : x <> iC -> dual_inner (x :: ict) ((X, r) :: lt) = run q <- dual_inner ict lt; Ok (dual_letter_of x X r :: q).
Proof. intros N. destruct x; try congruence; reflexivity. Qed.
Lemma opposition_id X r i : valid_rank X r -> i < r -> (match X with tA => 1 <? r | tD => Nat.odd r | tE => r =? 6 | tT => true | _ => false end) = false -> opposition X r i = i /\ X <> tT.
Proof.
  intros V Hi H. destruct X; cbn [opposition valid_rank] in *; try (split; [reflexivity|discriminate]); try discriminate.
  - apply Nat.ltb_ge in H. split; [lia|discriminate].
  - rewrite H. split; [reflexivity|discriminate].
  - rewrite H. split; [reflexivity|discriminate].
Qed.
(** the letter [y] stands for the map of [x] followed by the opposition *)
Definition dual_pair (x y : icl) (X : letter) (r : nat) : Prop :=
  y <> ie /\ y <> iC /\ (y = iu -> X = tD /\ Nat.even r = true) /\
  forall i, i < r -> head_map y X r i = after (head_map x X r) (head_map is X r) i.
Lemma dual_letter_pair x X r : valid_rank X r -> x <> ie -> x <> iC -> (x = iu -> X = tD /\ Nat.even r = true) -> dual_pair x (dual_letter_of x X r) X r.
Proof.
  intros V N NC U. unfold dual_pair, dual_letter_of.
  destruct (match X with tA => 1 <? r | tD => Nat.odd r | tE => r =? 6 | tT => true | _ => false end) eqn:S.
  - destruct x; try congruence.
    + split; [discriminate|]. split; [discriminate|]. split; [discriminate|]. intros i Hi. unfold after. cbn [head_map fst snd]. f_equal. destruct X; reflexivity.
    + split; [discriminate|]. split; [discriminate|]. split; [discriminate|]. intros i Hi. unfold after. cbn [head_map fst snd]. rewrite opposition_inv by assumption. f_equal. destruct X; reflexivity.
    + destruct (U eq_refl) as [-> E]. rewrite <- Nat.negb_even, E in S. discriminate.
  - split; [exact N|]. split; [exact NC|]. split; [exact U|]. intros i Hi. unfold after.
    pose proof (head_bound x X r i V N U) as HB. assert (HS : head_size x r = r) by (destruct x; try reflexivity; congruence). rewrite HS in HB. specialize (HB Hi).
    destruct (opposition_id X r _ V HB S) as [E NT]. cbn [head_map fst snd] in *. change (fst (head_map is X r ?j)) with (opposition X r j).
    rewrite E. destruct (head_map x X r i) as [a b]. cbn [fst snd]. f_equal. destruct X; try congruence; lia.
Qed.
Lemma dual_ict_pair x X r : valid_rank X r -> x <> ie -> x <> iC -> (x = iu -> X = tD /\ Nat.even r = true) ->
  dual_pair x (match X with tB | tC | tF | tf | tG | tg => x | tA | tE | tT => match x with is => ic | _ => is end
               | tD => if Nat.odd r then match x with is | iu => ic | _ => is end else x end) X r.
Proof.
  intros V N NC U. pose proof (dual_letter_pair x X r V N NC U) as D. unfold dual_letter_of in D. destruct X; try exact D.
  - destruct (Nat.ltb_spec 1 r) as [L|L]; [destruct x; try congruence; try exact D; destruct (U eq_refl); discriminate|].
    cbn in V. assert (r = 1) by lia. subst r. destruct x; try congruence.
    + split; [discriminate|]. split; [discriminate|]. split; [discriminate|]. intros i Hi. reflexivity.
    + split; [discriminate|]. split; [discriminate|]. split; [discriminate|]. intros i Hi. replace i with 0 by lia. reflexivity.
    + destruct (U eq_refl); discriminate.
  - destruct (Nat.odd r) eqn:O; [|exact D]. destruct x; try congruence; try exact D. destruct (U eq_refl) as [_ E]. rewrite <- Nat.negb_even, E in O. discriminate.
  - destruct (r =? 6) eqn:E6; [destruct x; try congruence; try exact D; destruct (U eq_refl); discriminate|].
    destruct x; try congruence; [| |destruct (U eq_refl); discriminate].
    + split; [discriminate|]. split; [discriminate|]. split; [discriminate|]. intros i Hi. reflexivity.
    + split; [discriminate|]. split; [discriminate|]. split; [discriminate|]. intros i Hi. unfold after. cbn [head_map fst snd opposition]. rewrite E6. reflexivity.
  - destruct x; try congruence; try exact D; destruct (U eq_refl); discriminate.
Qed.
Lemma after_cons x y X r ict ict' lt i : x <> ie -> x <> iC -> valid_rank X r -> (x = iu -> X = tD /\ Nat.even r = true) -> dual_pair x y X r ->
  (i < r \/ inner_map ict' lt (i - r) = after (inner_map ict lt) (inner_map (split_of lt) lt) (i - r)) ->
  inner_map (y :: ict') ((X, r) :: lt) i = after (inner_map (x :: ict) ((X, r) :: lt)) (inner_map (split_of ((X, r) :: lt)) ((X, r) :: lt)) i.
Proof.
  intros N NC V U (NY & NYC & _ & D) R. unfold after. cbn [split_of map]. fold (split_of lt). rewrite !inner_map_cons by (assumption || discriminate).
  assert (HS : head_size x r = r) by (destruct x; try reflexivity; congruence). assert (HR : head_rest x lt = lt) by (destruct x; try reflexivity; congruence).
  assert (HSy : head_size y r = r) by (destruct y; try reflexivity; congruence). assert (HRy : head_rest y lt = lt) by (destruct y; try reflexivity; congruence).
  pose proof (head_bound x X r i V N U) as HB. rewrite HS in HB. rewrite HS, HR, HSy, HRy. cbn [head_size head_rest].
  destruct (Nat.ltb_spec i r) as [L|L].
  - rewrite (proj2 (Nat.ltb_lt _ _) (HB L)). rewrite (D i L). reflexivity.
  - destruct R as [R|R]; [lia|]. rewrite R. unfold after. cbn [fst snd]. rewrite (proj2 (Nat.ltb_ge (r + _) r)) by lia. cbn [fst snd].
    replace (r + fst (inner_map ict lt (i - r)) - r) with (fst (inner_map ict lt (i - r))) by lia. reflexivity.
Qed.
Definition good_dual (ict ict' : list icl) (lt : lietype) : Prop :=
  valid_inner ict' lt /\ length ict' = length ict /\
  (~ In iC ict -> forall i, i < total lt -> inner_map ict' lt i = after (inner_map ict lt) (inner_map (split_of lt) lt) i).
Lemma good_cons x y X r ict ict' lt : valid_rank X r -> x <> ie -> x <> iC -> (x = iu -> X = tD /\ Nat.even r = true) -> dual_pair x y X r ->
  good_dual ict ict' lt -> good_dual (x :: ict) (y :: ict') ((X, r) :: lt).
Proof.
  intros V N NC U D (A & B & C). pose proof D as (NY & NYC & UY & _). split; [|split].
  - destruct y; cbn [valid_inner]; try congruence; try exact A. destruct (UY eq_refl) as [-> E]. split; [exact E|exact A].
  - cbn. rewrite B. reflexivity.
  - intros NI i Hi. apply after_cons; try assumption. destruct (Nat.ltb_spec i r) as [L|L]; [left; exact L|right].
    apply C; [intros I1; apply NI; right; exact I1|]. cbn [total snd] in Hi. lia.
Qed.
Lemma good_cons_C X r ict ict' lt : good_dual ict ict' lt -> good_dual (iC :: ict) (iC :: ict') ((X, r) :: (X, r) :: lt).
Proof.
  intros (A & B & C). split; [split; [reflexivity|exact A]|]. split; [cbn; rewrite B; reflexivity|]. intros NI. destruct NI. left. reflexivity.
Qed.
Lemma dual_inner_ok ict : forall lt, valid_inner ict lt -> valid_type lt -> exists ict', dual_inner ict lt = Ok ict' /\ good_dual ict ict' lt.
Proof.
  induction ict as [|x ict IH]; intros lt VI V.
  - destruct lt; [|destruct VI]. exists []. split; [reflexivity|]. split; [exact I|]. split; [reflexivity|]. intros _ i Hi. cbn in Hi. lia.
  - destruct (valid_inner_cons x ict lt VI V) as (X & r & lt' & -> & N & VR & T & VI' & V' & U & C). destruct (IH _ VI' V') as (ict' & E & G).
    assert (D : x = iC \/ x <> iC) by (destruct x; auto; right; discriminate). destruct D as [->|NC].
    + destruct (C eq_refl) as (lt'' & ->). cbn [head_rest tl] in *. exists (iC :: ict'). cbn [dual_inner]. rewrite E. cbn [bind]. split; [reflexivity|]. apply good_cons_C, G.
    + assert (HR : head_rest x lt' = lt') by (destruct x; try reflexivity; congruence). rewrite HR in *.
      exists (dual_letter_of x X r :: ict'). rewrite dual_inner_cons by exact NC. rewrite E. cbn [bind]. split; [reflexivity|].
      apply good_cons; try assumption. apply dual_letter_pair; assumption.
Qed.
Lemma dual_ict_ok ict : forall lt, valid_inner ict lt -> valid_type lt -> exists ict', dual_ict ict lt = Ok ict' /\ good_dual ict ict' lt.
Proof.
  induction ict as [|x ict IH]; intros lt VI V.
  - destruct lt; [|destruct VI]. exists []. split; [reflexivity|]. split; [exact I|]. split; [reflexivity|]. intros _ i Hi. cbn in Hi. lia.
  - destruct (valid_inner_cons x ict lt VI V) as (X & r & lt' & -> & N & VR & T & VI' & V' & U & C). destruct (IH _ VI' V') as (ict' & E & G).
    assert (D : x = iC \/ x <> iC) by (destruct x; auto; right; discriminate). destruct D as [->|NC].
    + destruct (C eq_refl) as (lt'' & ->). cbn [head_rest tl] in *. exists (iC :: ict'). cbn [dual_ict]. rewrite E. cbn [bind]. split; [reflexivity|]. apply good_cons_C, G.
    + assert (HR : head_rest x lt' = lt') by (destruct x; try reflexivity; congruence). rewrite HR in *.
      exists ((match X with tB | tC | tF | tf | tG | tg => x | tA | tE | tT => match x with is => ic | _ => is end
               | tD => if Nat.odd r then match x with is | iu => ic | _ => is end else x end) :: ict').
      split; [destruct x; try congruence; cbn [dual_ict]; rewrite E; cbn [bind]; destruct X; reflexivity|].
      apply good_cons; try assumption. apply (dual_ict_pair x X r); assumption.
Qed.

(** the maps are the same for the dual types *)
Lemma opposition_dual X r i : opposition (fst (dual_simple (X, r))) r i = opposition X r i.
Proof. destruct X; reflexivity. Qed.
Lemma inner_map_dual ict : forall lt i, valid_inner ict lt -> inner_map ict (map dual_simple lt) i = inner_map ict lt i.
Proof.
  induction ict as [|x ict IH]; intros lt i VI; [destruct lt; reflexivity|]. destruct lt as [|[X r] lt]; [reflexivity|].
  assert (N : x <> ie) by (destruct x; try discriminate; destruct VI).
  cbn [map]. change (dual_simple (X, r)) with (fst (dual_simple (X, r)), r). rewrite !inner_map_cons by exact N.
  assert (VI' : valid_inner ict (head_rest x lt)).
  { destruct x; cbn [valid_inner head_rest] in *; try exact VI; try congruence.
    - destruct lt as [|s lt]; [destruct VI|]. apply VI.
    - destruct X; try (destruct VI; fail). apply VI. }
  assert (HR : head_rest x (map dual_simple lt) = map dual_simple (head_rest x lt)) by (destruct x; try reflexivity; destruct lt; reflexivity).
  rewrite HR, IH by exact VI'. destruct (i <? head_size x r); [|reflexivity].
  destruct x; try reflexivity. cbn [head_map]. rewrite opposition_dual. f_equal. destruct X; reflexivity.
Qed.
Lemma valid_inner_dual ict : forall lt, valid_inner ict lt -> valid_inner ict (map dual_simple lt).
Proof.
  induction ict as [|x ict IH]; intros lt VI; [destruct lt; [exact I|destruct VI]|].
  destruct lt as [|[X r] lt]; [destruct x; destruct VI|]. destruct x; cbn [valid_inner map] in *; try (apply IH; exact VI); try (destruct VI; fail).
  - destruct lt as [|s lt]; [destruct VI|]. destruct VI as [<- VI]. cbn [map]. split; [reflexivity|apply IH, VI].
  - destruct X; try (destruct VI; fail). cbn [dual_simple fst snd]. split; [apply VI|apply IH, VI].
Qed.
Lemma split_of_dual lt : split_of (map dual_simple lt) = split_of lt.
Proof. unfold split_of. rewrite map_map. reflexivity. Qed.
Lemma valid_split lt : valid_inner (split_of lt) lt.
Proof. induction lt as [|s lt IH]; [exact I|exact IH]. Qed.

(** ** Duals of layouts *)
Lemma dual_layout_ok n f lo : valid_type (l_type lo) -> plain (l_type lo) -> valid_inner (l_inner lo) (l_type lo) -> straightens n f (l_type lo) (l_perm lo) ->
  gives (dual_layout lo) (fun lo' => valid_type (l_type lo') /\ plain (l_type lo') /\ valid_inner (l_inner lo') (l_type lo') /\
    straightens n (fun i j => f j i) (l_type lo') (l_perm lo') /\
    (~ In iC (l_inner lo) -> forall i, i < n -> inner_map (l_inner lo') (l_type lo') i =
       after (inner_map (l_inner lo) (l_type lo)) (inner_map (split_of (l_type lo)) (l_type lo)) i)) never.
Proof.
  intros V PL VI (T & P & H). unfold dual_layout. set (lt := l_type lo) in *. set (pi := l_perm lo) in *.
  assert (Lp : length pi = n) by apply (pi_length n pi P).
  eapply gives_bind; [apply (dual_factors_ok lt V 0 pi); lia|]. intros q (Q1 & Q2 & Q3).
  destruct (dual_inner_ok (l_inner lo) lt VI V) as (ict' & E & (G1 & G2 & G3)). rewrite E. cbn [bind gives l_type l_inner l_perm]. rewrite Q1.
  destruct (dual_valid_type lt V) as [V' T'].
  assert (Q3' : forall t, t < n -> nth t (snd q) 0 = nth (flip lt t) pi 0).
  { intros t Ht. rewrite Q3. cbn [Nat.leb andb Nat.add]. rewrite (proj2 (Nat.ltb_lt t (total lt))) by lia. rewrite Nat.sub_0_r. reflexivity. }
  split; [exact V'|]. split.
  { unfold plain in *. clear -PL. induction PL as [|[X r] lt [A B] PL IH]; constructor; [|exact IH]. cbn [dual_simple fst snd] in *. destruct X; split; congruence. }
  split; [apply valid_inner_dual, G1|]. split.
  - split; [lia|]. split.
    + apply permutes_intro; [lia| |].
      * intros i Hi. rewrite Q3' by exact Hi. apply (pi_bound n pi P). rewrite <- T. apply flip_bound. lia.
      * intros i j Hi Hj Eij. rewrite !Q3' in Eij by assumption. apply (pi_inj n pi P) in Eij; [|rewrite <- T; apply flip_bound; lia|rewrite <- T; apply flip_bound; lia].
        rewrite <- (flip_inv lt i), <- (flip_inv lt j) by lia. rewrite Eij. reflexivity.
    + intros i j Hi Hj. rewrite !Q3' by assumption. rewrite H by (rewrite <- T; apply flip_bound; lia). symmetry. apply block_flip; [exact PL|exact V|lia|lia].
  - intros NI i Hi. rewrite inner_map_dual by exact G1. apply G3; [exact NI|lia].
Qed.

(** ** Involutions of simple types *)
Definition signed (m : nat -> nat * Z) (a b : nat) : Z := if a =? fst (m b) then snd (m b) else 0%Z.
Definition any_fits : Z -> bool := fun _ => true.
Lemma id_signed n : gives (mat_id (zarith any_fits) n) (fun M => is_mx M n n (signed (fun b => (b, 1%Z)))) never.
Proof.
  eapply (gives_mono_err _ _ (overflows any_fits)); [|apply zid_ok]. intros e [_ [x H]]. discriminate.
Qed.
Definition involution_map (s : simple) (tp : simple_ict) : nat -> nat * Z :=
  match tp with
  | equal_rank => head_map ic (fst s) (snd s)
  | complex => head_map iC (fst s) (snd s)
  | unequal_rank => head_map (match fst s with tD => iu | _ => is end) (fst s) (snd s)
  end.
Ltac swap_step H3 := 
  eapply is_mx_ext; [exact H3|]; intros a b Ha Hb; unfold upd, signed; cbn [fst snd]; decide_tests.
Lemma simple_involution_ok s tp : (tp = unequal_rank -> unequal_exists s) -> let n := match tp with complex => 2 * snd s | _ => snd s end in
  gives (simple_involution s tp) (fun M => is_mx M n n (signed (involution_map s tp))) never.
Proof.
  destruct s as [X r]. intros U n. unfold simple_involution. cbn [fst snd] in *. change (fun _ : Z => true) with any_fits.
  eapply gives_bind; [apply id_signed|]. fold n. intros M H. destruct tp.
  - exact H.
  - specialize (U eq_refl). unfold unequal_exists in U. cbn [fst snd] in U. unfold involution_map. cbn [fst snd]. subst n.
    destruct X; try (destruct U; fail).
    + apply (gives_upto0 (fun l M1 => is_mx M1 r r (signed (fun b => ((if (b <? l) || (r - 1 - b <? l) then r - 1 - b else b), 1%Z))))).
      * swap_step H.
      * intros l M1 Hl H1. assert (L2 : l < r - 1 - l) by (pose proof (Nat.mul_div_le r 2 ltac:(lia)); pose proof (Nat.mod_upper_bound r 2 ltac:(lia)); pose proof (Nat.div_mod r 2 ltac:(lia)); lia).
        eapply gives_bind; [apply (mswap_ok _ _ _ _ _ _ _ _ H1); lia|]. intros M2 H2. eapply gives_mono; [apply (mswap_ok _ _ _ _ _ _ _ _ H2); lia|]. intros M3 H3. 
        eapply is_mx_ext; [exact H3|]. intros a b Ha Hb. unfold upd, signed. cbn [fst snd].
        destruct (Nat.eq_dec b l) as [->|Nb]; [decide_tests|]. destruct (Nat.eq_dec b (r - 1 - l)) as [->|Nb2]; [decide_tests|]. decide_tests.
      * intros M1 H1. eapply is_mx_ext; [exact H1|]. intros a b Ha Hb. unfold signed. cbn [head_map opposition fst snd].
        assert (b < r / 2 \/ r - 1 - b < r / 2 \/ r - 1 - b = b) by (pose proof (Nat.div_mod r 2 ltac:(lia)); pose proof (Nat.mod_upper_bound r 2 ltac:(lia)); lia).
        destruct (Nat.ltb_spec b (r / 2)), (Nat.ltb_spec (r - 1 - b) (r / 2)); cbn [orb]; try reflexivity. replace (r - 1 - b) with b by lia. reflexivity.
    + eapply gives_bind; [apply (mswap_ok _ _ _ _ _ _ _ _ H); lia|]. intros M2 H2. eapply gives_mono; [apply (mswap_ok _ _ _ _ _ _ _ _ H2); lia|]. intros M3 H3.
      eapply is_mx_ext; [exact H3|]. intros a b Ha Hb. unfold upd, signed. cbn [fst snd head_map].
      destruct (Nat.eq_dec b (r - 2)) as [->|Nb]; [decide_tests|]. destruct (Nat.eq_dec b (r - 1)) as [->|Nb2]; [decide_tests|]. decide_tests.
    + subst r. eapply gives_bind; [apply (mswap_ok _ _ _ _ _ _ _ _ H); lia|]. intros M1 H1. eapply gives_bind; [apply (mswap_ok _ _ _ _ _ _ _ _ H1); lia|]. intros M2 H2.
      eapply gives_bind; [apply (mswap_ok _ _ _ _ _ _ _ _ H2); lia|]. intros M3 H3. eapply gives_mono; [apply (mswap_ok _ _ _ _ _ _ _ _ H3); lia|]. intros M4 H4.
      eapply is_mx_ext; [exact H4|]. intros a b Ha Hb.
      do 6 (destruct a as [|a]; [do 6 (destruct b as [|b]; [reflexivity|]); lia|]). lia.
    + subst r. apply (gives_mput M 1 1 _ 0 0 _ _ H); [lia|lia|]. intros M1 H1. eapply is_mx_ext; [exact H1|]. intros a b Ha Hb.
      replace a with 0 by lia. replace b with 0 by lia. reflexivity.
  - subst n. unfold involution_map. cbn [fst snd].
    apply (gives_upto0 (fun l M1 => is_mx M1 (2 * r) (2 * r) (signed (fun b => ((if b <? l then r + b else if (r <=? b) && (b <? r + l) then b - r else b), 1%Z))))).
    + swap_step H.
    + intros l M1 Hl H1. eapply gives_bind; [apply (mswap_ok _ _ _ _ _ _ _ _ H1); lia|]. intros M2 H2. eapply gives_mono; [apply (mswap_ok _ _ _ _ _ _ _ _ H2); lia|]. intros M3 H3.
      eapply is_mx_ext; [exact H3|]. intros a b Ha Hb. unfold upd, signed. cbn [fst snd].
      destruct (Nat.eq_dec b l) as [->|Nb]; [decide_tests|]. destruct (Nat.eq_dec b (l + r)) as [->|Nb2]; [decide_tests|]. decide_tests.
    + intros M1 H1. eapply is_mx_ext; [exact H1|]. intros a b Ha Hb. unfold signed. cbn [head_map fst snd]. decide_tests.
Qed.
