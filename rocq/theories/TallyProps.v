(** Theorems about TallyModel.v *)

From Coq Require Import List NArith Arith Lia Bool.
From Verif Require Import VecModel RunModel TallyModel TallySpec TallyProofs TallyDerived.
Import ListNotations.
Open Scope N_scope.

(** [made cw t f s]: the table [t], with counters of [cw] bytes, arose by construction, counting
    and reading back from a file; [f] is the histogram of what was counted, and [s] the
    total counted since construction or reading *)
Inductive made (cw : nat) : tv -> (N -> N) -> N -> Prop :=
| made_new limit : made cw (tv_new limit) (fun _ => 0) 0
| made_one t f s i b t' : made cw t f s -> i < 2 ^ 64 -> f i + 1 < 2 ^ 64 ->
    tally cw t i = Ok (b, t') -> made cw t' (add_to f i 1) (s + 1)
| made_many t f s i m b t' : made cw t f s -> i < 2 ^ 64 -> 0 < m -> f i + m < 2 ^ 64 ->
    tally_many cw t i m = Ok (b, t') -> made cw t' (add_to f i m) (s + m)
| made_read t f s t' : made cw t f s -> (cw <= 8)%nat ->
    csize t < 2 ^ 32 -> N.of_nat (length (overflow t)) < 2 ^ 32 ->
    tv_read cw true (write_to cw t) = Ok t' -> made cw t' f 0.

Lemma made_repr cw t f s : (1 <= cw)%nat -> made cw t f s -> repr cw t f /\ total t = s mod 2 ^ 64.
Proof.
  intros W. induction 1 as [limit|t f s i b t' M [R T] H1 H2 E|t f s i m b t' M [R T] H1 H2 H3 E|t f s t' M [R T] H1 H2 H3 E].
  - split; [now apply repr_new|reflexivity].
  - destruct (tally_ok cw W t f i R H1 H2) as (b' & u & E2 & R2 & T2 & _). rewrite E in E2. injection E2 as <- <-.
    split; [auto|]. rewrite T2, T. unfold w64. rewrite N.add_mod_idemp_l by lia. auto.
  - destruct (tally_many_ok cw W t f i m R H1 H2 H3) as (b' & u & E2 & R2 & T2 & _). rewrite E in E2. injection E2 as <- <-.
    split; [auto|]. rewrite T2, T. unfold w64. rewrite N.add_mod_idemp_l by lia. auto.
  - rewrite (tv_read_ok cw W t f) in E by auto. injection E as <-. split; [|reflexivity]. now apply repr_read.
Qed.

(** a table used in the examples: counters of one byte, capacity 4 *)
Definition build (ops : list (N * N)) (t : tv) : res tv :=
  fold_left (fun r '(i, m) => run t <- r; run (_, t) <- tally_many 1 t i m; Ok t) ops (Ok t).
Definition sample : tv := mk_tv [0; 0; 255; 7] 4 [(2, 300); (9, 4); (1000, 1)] 1000 312.
Example sample_built : build [(2, 200); (9, 4); (3, 7); (1000, 1); (2, 100)] (tv_new 4) = Ok sample.
Proof. vm_compute. reflexivity. Qed.
Lemma sample_made : exists f s, made 1 sample f s.
Proof.
  assert (M0 := made_new 1 4).
  assert (M1 := made_many 1 _ _ _ 2 200 true (mk_tv [0; 0; 200] 4 [] 2 200) M0 eq_refl eq_refl eq_refl eq_refl).
  assert (M2 := made_many 1 _ _ _ 9 4 true (mk_tv [0; 0; 200] 4 [(9, 4)] 9 204) M1 eq_refl eq_refl eq_refl eq_refl).
  assert (M3 := made_many 1 _ _ _ 3 7 true (mk_tv [0; 0; 200; 7] 4 [(9, 4)] 9 211) M2 eq_refl eq_refl eq_refl eq_refl).
  assert (M4 := made_one 1 _ _ _ 1000 true (mk_tv [0; 0; 200; 7] 4 [(9, 4); (1000, 1)] 1000 212) M3 eq_refl eq_refl eq_refl).
  assert (M5 := made_many 1 _ _ _ 2 100 false sample M4 eq_refl eq_refl eq_refl eq_refl).
  eauto.
Qed.

(** multiplicity gives what was counted, and never looks for an absent entry *)
Theorem C52_multiplicity cw t f s i : (1 <= cw)%nat -> made cw t f s -> multiplicity cw t i = Ok (f i).
Proof. intros W M. apply multiplicity_ok; auto. now apply (made_repr cw t f s). Qed.
Print Assumptions C52_multiplicity.
Example C52_multiplicity_ex : map (multiplicity 1 sample) [0; 2; 3; 9; 10; 1000] = map Ok [0; 300; 7; 4; 0; 1].
Proof. vm_compute. reflexivity. Qed.

(** counting succeeds and gives the result whether the index is new *)
Theorem C52_tally cw t f s i : (1 <= cw)%nat -> made cw t f s -> i < 2 ^ 64 -> f i + 1 < 2 ^ 64 ->
  exists t', tally cw t i = Ok (f i =? 0, t') /\ made cw t' (add_to f i 1) (s + 1).
Proof.
  intros W M H1 H2. destruct (made_repr cw t f s W M) as [R _].
  destruct (tally_ok cw W t f i R H1 H2) as (b & t' & E & _ & _ & _ & ->). exists t'. split; [auto|].
  eapply made_one; eauto.
Qed.
Print Assumptions C52_tally.
Theorem C52_tally_many cw t f s i m : (1 <= cw)%nat -> made cw t f s -> i < 2 ^ 64 -> 0 < m -> f i + m < 2 ^ 64 ->
  exists b t', tally_many cw t i m = Ok (b, t') /\ made cw t' (add_to f i m) (s + m) /\
    (b = true -> f i = 0) /\ (m < 2 ^ (8 * N.of_nat cw) - 1 \/ csize t <= i -> b = (f i =? 0)).
Proof.
  intros W M H1 H2 H3. destruct (made_repr cw t f s W M) as [R _].
  destruct (tally_many_ok cw W t f i m R H1 H2 H3) as (b & t' & E & _ & _ & _ & F). exists b, t'. split; [auto|].
  split; [eapply made_many; eauto|]. fold (maxCount cw). split; intros B; rewrite F in *.
  - destruct (_ && _); [discriminate|]. now apply N.eqb_eq.
  - destruct B; [|destruct (N.ltb_spec i (csize t)); [lia|auto]]. destruct (N.leb_spec (maxCount cw) m); [lia|now rewrite andb_false_r].
Qed.
Print Assumptions C52_tally_many.
Example C52_tally_many_ex : exists t', tally_many 1 sample 0 5 = Ok (true, t') /\ count t' = [5; 0; 255; 7] /\ sum t' = 317.
Proof. eexists. split; [vm_compute; reflexivity|]. split; reflexivity. Qed.
(** but a new index counted at once [maxCount] times or more is reported as not new if its counter exists *)
Theorem C52_tally_many_new_refuted : exists t f s, made 1 t f s /\ f 0 = 0 /\
  exists t', tally_many 1 t 0 255 = Ok (false, t').
Proof.
  exists (mk_tv [0; 1] 4 [] 1 1), (add_to (fun _ => 0) 1 1), (0 + 1). split; [|split; [reflexivity|]].
  - eapply (made_one 1 (tv_new 4) _ 0 1 true); [constructor|reflexivity|reflexivity|vm_compute; reflexivity].
  - eexists. vm_compute. reflexivity.
Qed.
Print Assumptions C52_tally_many_new_refuted.

(** the total is what was counted since construction, modulo 2^64 *)
Theorem C52_sum cw t f s : (1 <= cw)%nat -> made cw t f s -> sum t = s mod 2 ^ 64.
Proof. intros W M. now apply (made_repr cw t f s). Qed.
Print Assumptions C52_sum.
(** reading a table from a file loses the total *)
Theorem C52_sum_read_refuted : exists t f s t', made 1 t f s /\ tv_read 1 true (write_to 1 t) = Ok t' /\
  multiplicity 1 t' 1 = Ok 1 /\ sum t = 1 /\ sum t' = 0.
Proof.
  exists (mk_tv [0; 1] 4 [] 1 1), (add_to (fun _ => 0) 1 1), (0 + 1). eexists. split; [|split; [vm_compute; reflexivity|now vm_compute]].
  eapply (made_one 1 (tv_new 4) _ 0 1 true); [constructor|reflexivity|reflexivity|vm_compute; reflexivity].
Qed.
Print Assumptions C52_sum_read_refuted.

(** size() bounds the indices that occur, and is attained *)
Theorem C52_size cw t f s : (1 <= cw)%nat -> made cw t f s -> (exists i, 0 < f i) -> f (2 ^ 64 - 1) = 0 ->
  0 < f (size t - 1) /\ forall i, 0 < f i -> i < size t.
Proof.
  intros W M [i0 H0] Z. destruct (made_repr cw t f s W M) as [R _].
  assert (F : 0 < f (max t)) by (destruct (r_max2 cw t f R) as [|[_ A]]; [auto|rewrite A in H0; lia]).
  assert (max t < 2 ^ 64 - 1).
  { pose proof (r_index cw t f R). destruct (N.eq_dec (max t) (2 ^ 64 - 1)) as [E|]; [|lia]. rewrite E, Z in F. lia. }
  rewrite (size_ok cw W t f R H). replace (max t + 1 - 1) with (max t) by lia. split; [auto|].
  intros i Hi. apply (r_max cw t f R) in Hi. lia.
Qed.
Print Assumptions C52_size.
Example C52_size_ex : size sample = 1001.
Proof. reflexivity. Qed.
(** an empty table has size 1, and the index 2^64-1 makes it 0 *)
Theorem C52_size_refuted :
  (size (tv_new 4) = 1) /\
  exists t f s, made 1 t f s /\ 0 < f (2 ^ 64 - 1) /\ size t = 0.
Proof.
  split; [reflexivity|].
  exists (mk_tv [] 4 [(2 ^ 64 - 1, 1)] (2 ^ 64 - 1) 1), (add_to (fun _ => 0) (2 ^ 64 - 1) 1), (0 + 1).
  split; [|split; reflexivity].
  eapply (made_one 1 (tv_new 4) _ 0 (2 ^ 64 - 1) true); [constructor|reflexivity|reflexivity|vm_compute; reflexivity].
Qed.
Print Assumptions C52_size_refuted.

(** iteration upwards *)
Theorem C52_advance cw t f s i : (1 <= cw)%nat -> made cw t f s -> (exists j, i < j /\ 0 < f j) ->
  exists j, advance t i = Ok j /\ is_next f i j.
Proof.
  intros W M (j & H1 & H2). destruct (made_repr cw t f s W M) as [R _].
  apply (advance_ok cw W t f i R). apply (r_max cw t f R) in H2. lia.
Qed.
Print Assumptions C52_advance.
Theorem C52_advance_end cw t f s i : (1 <= cw)%nat -> made cw t f s -> (forall j, i < j -> f j = 0) ->
  advance t i = Ok (size t).
Proof.
  intros W M H. destruct (made_repr cw t f s W M) as [R _]. apply advance_end.
  destruct (r_max2 cw t f R) as [A|[A _]]; [|lia]. destruct (N.le_gt_cases (max t) i); [auto|]. rewrite H in A; lia.
Qed.
Print Assumptions C52_advance_end.
Example C52_advance_ex : map (advance sample) [0; 2; 3; 9; 1000] = map Ok [2; 3; 9; 1000; 1001].
Proof. vm_compute. reflexivity. Qed.
(** counting with multiplicity 0 breaks iteration: an index that does not occur is visited, or the end
    of the map is dereferenced *)
Theorem C52_advance_zero_refuted :
  (exists b t, tally_many 1 (tv_new 1) 5 0 = Ok (b, t) /\ advance t 0 = Ok 5 /\ multiplicity 1 t 5 = Ok 0) /\
  (exists b t, tally_many 1 (tv_new 9) 5 0 = Ok (b, t) /\ advance t 0 = Fail Range).
Proof. split; eexists _, _; (split; [vm_compute; reflexivity|]); [split|]; vm_compute; reflexivity. Qed.
Print Assumptions C52_advance_zero_refuted.

(** iteration downwards *)
Theorem C52_lower cw t f s i : (1 <= cw)%nat -> made cw t f s ->
  exists b j, lower t i = Ok (b, j) /\ if b : bool then is_previous f i j else forall k, k < i -> f k = 0.
Proof.
  intros W M. destruct (made_repr cw t f s W M) as [R _].
  destruct (lower_ok cw W t f i R) as (b & j & E & H). exists b, j. split; [auto|]. destruct b; tauto.
Qed.
Print Assumptions C52_lower.
Example C52_lower_ex : map (lower sample) [1001; 1000; 9; 3; 2] =
  [Ok (true, 1000); Ok (true, 9); Ok (true, 3); Ok (true, 2); Ok (false, 2 ^ 64 - 1)].
Proof. vm_compute. reflexivity. Qed.

(** the histogram of the multiplicities *)
Theorem C52_derived cw mw t f s limit l : (1 <= cw)%nat -> (1 <= mw)%nat -> made cw t f s ->
  (forall i, 2 ^ 64 - 2 <= i -> f i = 0) -> support f l ->
  exists mu, derived cw mw t limit = Ok mu /\
    (forall m, 0 < m -> multiplicity mw mu m = Ok (how_many f l m)) /\
    multiplicity mw mu 0 = Ok (if f 0 =? 0 then 2 else 1).
Proof.
  intros W W2 M Z SL. destruct (made_repr cw t f s W M) as [R _]. apply derived_counts; auto.
  destruct (r_max2 cw t f R) as [A|[A _]]; [|lia]. destruct (N.lt_ge_cases (max t) (2 ^ 64 - 2)); [auto|]. rewrite Z in A; lia.
Qed.
Print Assumptions C52_derived.
Example C52_derived_ex : exists mu, derived 1 2 sample 100 = Ok mu /\
  map (multiplicity 2 mu) [0; 1; 2; 4; 7; 300] = map Ok [2; 1; 0; 1; 1; 1].
Proof. eexists. split; vm_compute; reflexivity. Qed.

(** writing is little-endian, and reading gives back the table, when [in.get()] is evaluated first *)
Theorem C52_write_bytes n x : write_bytes n x = little_endian n x.
Proof. exact (write_bytes_le n x). Qed.
Print Assumptions C52_write_bytes.
Theorem C52_read_bytes n x s : (n <= 8)%nat -> x < 256 ^ N.of_nat n -> read_bytes true n (write_bytes n x ++ s) = (x, s).
Proof. rewrite write_bytes_le. exact (read_le n x s). Qed.
Print Assumptions C52_read_bytes.
Example C52_read_bytes_ex : write_bytes 3 66051 = [3; 2; 1] /\ read_bytes true 3 [3; 2; 1; 9] = (66051, [9]).
Proof. vm_compute. auto. Qed.
(** with the other order, which C++ allows, the bytes are read in reverse *)
Theorem C52_read_bytes_order_refuted : exists x, x < 256 ^ 2 /\ fst (read_bytes false 2 (write_bytes 2 x)) <> x.
Proof. exists 1. vm_compute. split; [reflexivity|discriminate]. Qed.
Print Assumptions C52_read_bytes_order_refuted.
Theorem C52_file cw t f s : (1 <= cw <= 8)%nat -> made cw t f s ->
  csize t < 2 ^ 32 -> N.of_nat (length (overflow t)) < 2 ^ 32 ->
  exists t', tv_read cw true (write_to cw t) = Ok t' /\ (forall i, multiplicity cw t' i = Ok (f i)) /\ size t' = size t.
Proof.
  intros [W W8] M S1 S2. destruct (made_repr cw t f s W M) as [R _].
  eexists. split; [apply (tv_read_ok cw W t f); auto|]. split; [|reflexivity].
  intros i. apply multiplicity_ok; auto. now apply repr_read.
Qed.
Print Assumptions C52_file.
Example C52_file_ex : tv_read 1 true (write_to 1 sample) = Ok (mk_tv (count sample) 4 (overflow sample) 1000 0) /\
  write_to 1 sample = [4; 0; 0; 0;  3; 0; 0; 0;  0; 0; 255; 7;
    2; 0; 0; 0; 0; 0; 0; 0;  44; 1; 0; 0; 0; 0; 0; 0;  9; 0; 0; 0; 0; 0; 0; 0;  4; 0; 0; 0; 0; 0; 0; 0;
    232; 3; 0; 0; 0; 0; 0; 0;  1; 0; 0; 0; 0; 0; 0; 0].
Proof. split; vm_compute; reflexivity. Qed.
(** files with narrower keys and values in the overflow part *)
Theorem C52_file_widths cw wk wv t f s : (1 <= cw <= 8)%nat -> made cw t f s ->
  csize t < 2 ^ 32 -> N.of_nat (length (overflow t)) < 2 ^ 32 -> (1 <= wk <= 8)%nat -> (1 <= wv <= 8)%nat ->
  (forall k v, In (k, v) (overflow t) -> k < 256 ^ N.of_nat wk /\ v < 256 ^ N.of_nat wv) ->
  exists t', tv_read_widths cw true wk wv
    (little_endian 4 (csize t) ++ little_endian 4 (N.of_nat (length (overflow t))) ++
     flat_map (little_endian cw) (count t) ++
     flat_map (fun e => little_endian wk (fst e) ++ little_endian wv (snd e)) (overflow t)) = Ok t' /\
    (forall i, multiplicity cw t' i = Ok (f i)) /\ size t' = size t.
Proof.
  intros [W W8] M S1 S2 Hk Hv HB. destruct (made_repr cw t f s W M) as [R _].
  eexists. split; [apply (tv_read_widths_ok cw W wk wv t f); auto|]. split; [|reflexivity].
  intros i. apply multiplicity_ok; auto. now apply repr_read.
Qed.
Print Assumptions C52_file_widths.
Example C52_file_widths_ex : exists t', tv_read_widths 1 true 2 1 [2; 0; 0; 0;  1; 0; 0; 0;  0; 5;  1; 2; 7] = Ok t' /\
  multiplicity 1 t' 1 = Ok 5 /\ multiplicity 1 t' 513 = Ok 7 /\ size t' = 514.
Proof. eexists. split; [vm_compute; reflexivity|]. split; vm_compute; auto. Qed.
