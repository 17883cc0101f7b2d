(** Proofs about the orbit computation. *)

From Coq Require Import List Arith Bool Lia Relations.
From Verif Require Import VecModel VecProofs PermModel PartModel PartSpec.
Import ListNotations.
Open Scope nat_scope.
Open Scope vec_scope.

Definition trues (b : list bool) : nat := length (filter (fun x => x) b).
Lemma trues_put b y : get b y = Some true -> exists b', put b y false = Some b' /\ length b' = length b /\
  (forall j, get b' j = if j =? y then Some false else get b j) /\ trues b = S (trues b').
Proof.
  intros G. destruct (put_spec b y false (get_lt _ _ _ G)) as (b' & E & L & P). exists b'. repeat split; auto.
  clear L P. revert y b' G E. induction b as [|h t IH]; intros [|y] b' G E; try discriminate; cbn in G.
  - injection G as ->. cbn in E. injection E as <-. reflexivity.
  - cbn [put] in E. destruct (put t y false) as [t'|] eqn:Et; [|discriminate]. injection E as <-.
    specialize (IH y t' G Et). unfold trues in *. cbn [filter]. destruct h; cbn [length]; lia.
Qed.
Lemma trues_le b : trues b <= length b.
Proof. unfold trues. induction b as [|[] t IH]; cbn [filter length]; lia. Qed.
Lemma filter_true_repeat n : length (filter (fun x => x) (repeat true n)) = n.
Proof. induction n as [|n IH]; [reflexivity|]. cbn. congruence. Qed.

Lemma addToClass_ok p c j : j < length (d_class p) -> exists p', addToClass p c j = Some p' /\
  d_classRep p' = d_classRep p /\ length (d_class p') = length (d_class p) /\
  forall k, get (d_class p') k = if k =? j then Some c else get (d_class p) k.
Proof.
  intros H. unfold addToClass. destruct (put_spec (d_class p) j c H) as (l & E & L & G). rewrite E. eexists. split; [reflexivity|].
  cbn. auto.
Qed.
Lemma new_class_ok p j : j < length (d_class p) -> exists p', new_class p j = Some (p', length (d_classRep p)) /\
  d_classRep p' = d_classRep p ++ [j] /\ length (d_class p') = length (d_class p) /\
  forall k, get (d_class p') k = if k =? j then Some (length (d_classRep p)) else get (d_class p) k.
Proof.
  intros H. unfold new_class. destruct (put_spec (d_class p) j (length (d_classRep p)) H) as (l & E & L & G). rewrite E.
  rewrite (G j), Nat.eqb_refl. eexists. split; [reflexivity|]. cbn. auto.
Qed.

Section Orbits.
Variables (a : nat -> nat -> nat) (c n : nat).
Hypothesis act : acts a c n.
Notation "x ~ y" := (same_orbit a c n x y) (at level 70).

Lemma closed_back (b : list bool) : length b = n ->
  (forall y i, get b y = Some false -> i < c -> get b (a i y) = Some false) ->
  forall i y, i < c -> y < n -> get b (a i y) = Some false -> get b y = Some false.
Proof.
  intros L F i y Hi Hy H. destruct (act i Hi) as [R J].
  set (isf := fun z => match get b z with Some false => true | _ => false end).
  assert (S : forall z, isf z = true <-> get b z = Some false).
  { intros z. unfold isf. destruct (get b z) as [[]|]; split; congruence. }
  set (D := filter isf (seq 0 n)).
  assert (In_D : forall z, In z D <-> get b z = Some false).
  { intros z. unfold D. rewrite filter_In, in_seq, S. split; [tauto|]. intros G. pose proof (get_lt _ _ _ G). split; [lia|exact G]. }
  assert (ND : NoDup D) by apply NoDup_filter, seq_NoDup.
  assert (NM : NoDup (map (a i) D)).
  { clear -ND In_D J L. assert (B : forall z, In z D -> z < n) by (intros z Iz; apply In_D, get_lt in Iz; lia).
    clear In_D. induction ND as [|z l NI ND IH]; [constructor|]. cbn. constructor.
    - intros I. apply in_map_iff in I as (z' & E & I). apply NI. assert (z' = z) as <-; [|exact I].
      apply J; [apply B; right; exact I|apply B; left; reflexivity|exact E].
    - apply IH. intros z' I. apply B. right. exact I. }
  assert (I1 : incl (map (a i) D) D).
  { intros z Iz. apply in_map_iff in Iz as (z' & <- & I). apply In_D. apply F; [apply In_D; exact I|exact Hi]. }
  assert (I2 : incl D (map (a i) D)).
  { apply NoDup_length_incl; [exact NM|rewrite map_length; lia|exact I1]. }
  apply In_D in H. apply I2, in_map_iff in H as (z & E & I). apply In_D in I. assert (z < n) by (apply get_lt in I; lia).
  assert (z = y) as <- by (apply J; auto). exact I.
Qed.
Lemma orbit_closed (b : list bool) : length b = n ->
  (forall y i, get b y = Some false -> i < c -> get b (a i y) = Some false) ->
  forall x y, x ~ y -> (get b x = Some false <-> get b y = Some false).
Proof.
  intros L F x y H. induction H as [x y [Hx (i & Hi & ->)]| x | x y H IH | x y z H1 IH1 H2 IH2].
  - split; [intros G; apply F; auto|]. apply (closed_back b L F i x Hi Hx).
  - tauto.
  - tauto.
  - tauto.
Qed.

Record outer (x : nat) (p : partition) (b : list bool) : Prop := {
  o_lenc : length (d_class p) = n;
  o_lenb : length b = n;
  o_below : forall y, y < x -> y < n -> get b y = Some false;
  o_closed : forall y i, get b y = Some false -> i < c -> get b (a i y) = Some false;
  o_class : forall y, get b y = Some false -> exists k r, get (d_class p) y = Some k /\ get (d_classRep p) k = Some r /\ r <= y /\ r ~ y;
  o_rep : forall k r, get (d_classRep p) k = Some r -> get b r = Some false /\ get (d_class p) r = Some k /\ r < x;
  o_incr : forall k l r s, k < l -> get (d_classRep p) k = Some r -> get (d_classRep p) l = Some s -> r < s;
  o_diff : forall k l r s, get (d_classRep p) k = Some r -> get (d_classRep p) l = Some s -> r ~ s -> k = l }.

Section Inner.
Variables (root : nat) (p0 : partition) (b0 : list bool).
Hypothesis O0 : outer root p0 b0.
Hypothesis Hroot : root < n.
Hypothesis Fresh : get b0 root = Some true.
Let cls := length (d_classRep p0).

Record inner (P : nat -> list nat -> list bool -> Prop) (s : partition * list bool * list nat) : Prop := {
  i_lenc : length (d_class (fst (fst s))) = n;
  i_lenb : length (snd (fst s)) = n;
  i_rep : d_classRep (fst (fst s)) = d_classRep p0 ++ [root];
  i_old : forall y, get b0 y = Some false -> get (snd (fst s)) y = Some false /\ get (d_class (fst (fst s))) y = get (d_class p0) y;
  i_new : forall y, get (snd (fst s)) y = Some false -> get b0 y = Some false \/
            (get (d_class (fst (fst s))) y = Some cls /\ root ~ y /\ root <= y);
  i_root : get (snd (fst s)) root = Some false /\ get (d_class (fst (fst s))) root = Some cls;
  i_todo : forall y, In y (snd s) -> get (snd (fst s)) y = Some false /\ root ~ y;
  i_done : forall y, get (snd (fst s)) y = Some false -> In y (snd s) \/ P y (snd s) (snd (fst s)) }.
(** all images of y are known *)
Definition settled (y : nat) (_ : list nat) (b : list bool) : Prop := forall i, i < c -> get b (a i y) = Some false.

Lemma step_ok s : inner settled s -> snd s <> [] ->
  exists s', orbit_step a c cls s = Some s' /\ inner settled s' /\
    length (snd s') + trues (snd (fst s')) < length (snd s) + trues (snd (fst s)).
Proof.
  destruct s as [[p b] todo]. cbn [fst snd]. intros I NE. destruct todo as [|x todo]; [contradiction|]. cbn [orbit_step].
  assert (Hx := i_todo _ _ I x (or_introl eq_refl)). cbn [fst snd] in Hx. destruct Hx as [Dx Rx].
  assert (Lx : x < n) by (rewrite <- (i_lenb _ _ I); cbn [fst snd]; eapply get_lt; exact Dx).
  match goal with |- exists _, for_up c 0 ?body ?st = _ /\ _ =>
    destruct (for_up_rule (fun i s => inner (fun y _ b => settled y [] b \/ (y = x /\ forall j, j < i -> get b (a j x) = Some false)) s /\
       get (snd (fst s)) x = Some false /\
       length (snd s) + trues (snd (fst s)) = length todo + trues b) c 0 body st) as (s' & E & I' & _ & M) end.
  - split; [|split; [exact Dx|reflexivity]]. destruct I as [A1 A2 A3 A4 A5 A6 A7 A8]. cbn [fst snd] in *. constructor; cbn [fst snd]; auto.
    + intros y Iy. apply A7. right. exact Iy.
    + intros y Dy. destruct (A8 y Dy) as [[<-|Iy]|S]; [right; right; split; [reflexivity|intros; lia]|left; exact Iy|right; left; exact S].
  - intros i [[p' b'] todo'] Hi (I' & Dx' & M). cbn [fst snd] in Dx', M.
    destruct (act i ltac:(lia)) as [R J]. assert (Ly : a i x < n) by (apply R; exact Lx). remember (a i x) as y eqn:Ey. cbv zeta.
    assert (Lb' : length b' = n) by apply (i_lenb _ _ I').
    destruct (get_some b' y ltac:(lia)) as [m Em]. rewrite Em. destruct m.
    + destruct (trues_put b' y Em) as (b'' & Eb & Lb & Gb & Tb). rewrite Eb.
      assert (Lc' : length (d_class p') = n) by apply (i_lenc _ _ I').
      destruct (addToClass_ok p' cls y ltac:(lia)) as (p'' & Ep & Rp & Lp & Gp). rewrite Ep.
      eexists. split; [reflexivity|]. cbn [fst snd].
      assert (Keep : forall z, get b' z = Some false -> get b'' z = Some false).
      { intros z Dz. rewrite Gb. destruct (z =? y); [reflexivity|exact Dz]. }
      assert (Ry : root ~ y).
      { eapply rst_trans; [exact Rx|]. apply rst_step. split; [exact Lx|]. exists i. split; [lia|exact Ey]. }
      destruct I' as [A1 A2 A3 A4 A5 A6 A7 A8]. cbn [fst snd] in *.
      assert (Ny : get b0 y <> Some false) by (intros G0; destruct (A4 y G0) as [G1 _]; congruence).
      split; [|split].
      * constructor; cbn [fst snd]; try lia.
        -- congruence.
        -- intros z Dz. destruct (A4 z Dz) as [B1 B2]. split; [apply Keep; exact B1|]. rewrite Gp. destruct (Nat.eqb_spec z y) as [->|]; [contradiction|exact B2].
        -- intros z Dz. rewrite Gb in Dz. rewrite Gp. destruct (Nat.eqb_spec z y) as [Ezy|]; [rewrite Ezy in *|].
           ++ right. split; [reflexivity|]. split; [exact Ry|]. destruct (Nat.le_gt_cases root y) as [G|G]; [exact G|].
              exfalso. apply Ny. apply (o_below _ _ _ O0); lia.
           ++ apply A5. exact Dz.
        -- destruct A6 as [B1 B2]. split; [apply Keep; exact B1|]. rewrite Gp. destruct (root =? y); [reflexivity|exact B2].
        -- intros z [<-|Iz]; [rewrite Gb, Nat.eqb_refl; auto|]. destruct (A7 z Iz) as [B1 B2]. split; [apply Keep; exact B1|exact B2].
        -- intros z Dz. rewrite Gb in Dz. destruct (Nat.eqb_spec z y) as [Ezy|Dzy]; [left; left; congruence|].
           destruct (A8 z Dz) as [Iz|[S|[-> S]]]; [left; right; exact Iz| |].
           ++ right. left. intros j Hj. apply Keep, S, Hj.
           ++ right. right. split; [reflexivity|]. intros j Hj. destruct (Nat.eq_dec j i) as [->|]; [rewrite <- Ey, Gb, Nat.eqb_refl; reflexivity|].
              apply Keep, S. lia.
      * apply Keep. exact Dx'.
      * cbn [length]. lia.
    + eexists. split; [reflexivity|]. cbn [fst snd]. split; [|split; [exact Dx'|exact M]].
      destruct I' as [A1 A2 A3 A4 A5 A6 A7 A8]. cbn [fst snd] in *. constructor; cbn [fst snd]; auto.
      intros z Dz. destruct (A8 z Dz) as [Iz|[S|[-> S]]]; [left; exact Iz|right; left; exact S|]. right. right. split; [reflexivity|].
      intros j Hj. destruct (Nat.eq_dec j i) as [->|]; [rewrite <- Ey; exact Em|apply S; lia].
  - exists s'. split; [exact E|]. split; [|cbn [length]; lia].
    destruct I' as [A1 A2 A3 A4 A5 A6 A7 A8]. constructor; auto.
    intros y Dy. destruct (A8 y Dy) as [Iy|[S|[-> S]]]; [left; exact Iy|right; exact S|]. right. intros j Hj. apply S. lia.
Qed.
End Inner.

Lemma orbits_ok : acts a c n -> exists p, orbits a c n = Some p /\ classifies n (same_orbit a c n) (d_class p) (d_classRep p).
Proof.
  intros _. unfold orbits.
  match goal with |- exists _, match for_up n 0 ?body ?st with _ => _ end = _ /\ _ =>
    destruct (for_up_rule (fun x '(p, b) => outer x p b) n 0 body st) as ([p b] & E & O) end.
  - cbn [empty_partition]. assert (NT : forall y, get (repeat true n) y <> Some false).
    { intros y G. apply nth_error_In, repeat_spec in G. discriminate. }
    constructor; cbn [d_class d_classRep empty_partition]; try apply repeat_length; try (intros; lia);
      try (intros y G; destruct (NT y G)); try (intros y i G; destruct (NT y G)); intros k; intros; destruct k; discriminate.
  - intros root [p b] Hr O. destruct (get_some b root) as [m Em]; [rewrite (o_lenb _ _ _ O); lia|]. rewrite Em. destruct m.
    + destruct (new_class_ok p root) as (p1 & E1 & R1 & L1 & G1); [rewrite (o_lenc _ _ _ O); lia|]. rewrite E1.
      destruct (trues_put b root Em) as (b1 & Eb & Lb & Gb & Tb). rewrite Eb.
      set (cls := length (d_classRep p)) in *.
      assert (I0 : inner root p b settled (p1, b1, [root])).
      { destruct O as [A1 A2 A3 A4 A5 A6 A7 A8]. constructor; cbn [fst snd]; try lia; auto.
        - intros y Dy. rewrite Gb, G1. destruct (Nat.eqb_spec y root) as [->|]; [congruence|auto].
        - intros y Dy. rewrite Gb in Dy. rewrite G1. destruct (Nat.eqb_spec y root) as [Ey|]; [right|left; exact Dy]. rewrite Ey in *.
          split; [reflexivity|]. split; [apply rst_refl|lia].
        - rewrite Gb, G1, Nat.eqb_refl. auto.
        - intros y [<-|[]]. rewrite Gb, Nat.eqb_refl. split; [reflexivity|apply rst_refl].
        - intros y Dy. rewrite Gb in Dy. destruct (Nat.eqb_spec y root) as [Ey|]; [left; left; congruence|right].
          intros i Hi. rewrite Gb. destruct (a i y =? root); [reflexivity|]. apply A4; auto. }
      assert (Hr' : root < n) by lia.
      destruct (step_ok root p b O Hr' (p1, b1, [root]) I0 ltac:(discriminate)) as (s1 & Es & I1 & M1). fold cls in Es. rewrite Es.
      destruct (while_rule (fun s => inner root p b settled s) (fun s => length (snd s) + trues (snd (fst s)))
                  (fun s => negb (length (snd s) =? 0)) n (fun '(_, _, to_do) => Some (negb (length to_do =? 0)))
                  (orbit_step a c cls) s1) as (s2 & E2 & I2 & Z2).
      * exact I1.
      * cbn [fst snd length] in M1. pose proof (trues_le b). rewrite (o_lenb _ _ _ O) in H. lia.
      * intros [[p' b'] t'] _. reflexivity.
      * intros s Is Ns. destruct (step_ok root p b O Hr' s Is) as (s' & A & B & C).
        { intros Z. rewrite Z in Ns. discriminate. }
        exists s'. auto.
      * rewrite E2. destruct s2 as [[p2 b2] t2]. cbn [snd] in Z2. apply negb_false_iff, Nat.eqb_eq, length_zero_iff_nil in Z2. subst t2.
        exists (p2, b2). split; [reflexivity|].
        destruct I2 as [A1 A2 A3 A4 A5 A6 A7 A8]. cbn [fst snd] in *. destruct O as [B1 B2 B3 B4 B5 B6 B7 B8].
        assert (Glast : get (d_classRep p2) cls = Some root).
        { rewrite A3. unfold get, cls. rewrite nth_error_app2, Nat.sub_diag by lia. reflexivity. }
        assert (Gold : forall k r, get (d_classRep p2) k = Some r -> get (d_classRep p) k = Some r \/ k = cls /\ r = root).
        { intros k r G. rewrite A3 in G. unfold get in *. destruct (Nat.lt_ge_cases k (length (d_classRep p))) as [L|L].
          - rewrite nth_error_app1 in G by exact L. auto.
          - rewrite nth_error_app2 in G by exact L. right. destruct (k - length (d_classRep p)) as [|j] eqn:Ek.
            + cbn in G. split; [unfold cls; lia|congruence].
            + destruct j; discriminate. }
        assert (Gkeep : forall k r, get (d_classRep p) k = Some r -> get (d_classRep p2) k = Some r).
        { intros k r G. rewrite A3. unfold get in *. rewrite nth_error_app1; [exact G|]. apply nth_error_Some. congruence. }
        assert (Dr : forall y, y ~ root -> get b y <> Some false).
        { intros y Ry Dy. apply (orbit_closed b B2 B4 y root Ry) in Dy. congruence. }
        constructor; auto.
        -- intros y Hy Hy'. destruct (Nat.eq_dec y root) as [->|]; [apply A6|]. apply A4, B3; lia.
        -- intros y i Dy Hi. destruct (A8 y Dy) as [[]|S]. apply S, Hi.
        -- intros y Dy. destruct (A5 y Dy) as [Oy|(Cy & Ry & Ly)].
           ++ destruct (B5 y Oy) as (k & r & C1 & C2 & C3 & C4). exists k, r. destruct (A4 y Oy) as [_ C5]. rewrite C5. auto.
           ++ exists cls, root. auto.
        -- intros k r G. destruct (Gold k r G) as [G'|[-> ->]].
           ++ destruct (B6 k r G') as (C1 & C2 & C3). destruct (A4 r C1) as [C4 C5]. rewrite C5. repeat split; auto; lia.
           ++ destruct A6. repeat split; auto.
        -- intros k l r s Hkl Gk Gl. destruct (Gold k r Gk) as [G1'|[-> ->]], (Gold l s Gl) as [G2|[-> ->]].
           ++ eapply B7; eauto.
           ++ destruct (B6 k r G1') as (_ & _ & C3). exact C3.
           ++ apply get_lt in G2. unfold cls in Hkl. lia.
           ++ lia.
        -- intros k l r s Gk Gl Rrs. destruct (Gold k r Gk) as [G1'|[-> ->]], (Gold l s Gl) as [G2|[-> ->]].
           ++ eapply B8; eauto.
           ++ exfalso. destruct (B6 k r G1') as (C1 & _). exact (Dr r Rrs C1).
           ++ exfalso. destruct (B6 l s G2) as (C1 & _). exact (Dr s (rst_sym _ _ _ _ Rrs) C1).
           ++ reflexivity.
    + exists (p, b). split; [reflexivity|]. destruct O as [B1 B2 B3 B4 B5 B6 B7 B8]. constructor; auto.
      * intros y Hy Hy'. destruct (Nat.eq_dec y root) as [->|]; [exact Em|]. apply B3; lia.
      * intros k r G. destruct (B6 k r G) as (C1 & C2 & C3). repeat split; auto.
  - rewrite E. exists p. split; [reflexivity|]. cbn [Nat.add] in O. destruct O as [B1 B2 B3 B4 B5 B6 B7 B8].
    assert (All : forall y k, get (d_class p) y = Some k -> get b y = Some false).
    { intros y k G. apply get_lt in G. apply B3; lia. }
    split; [exact B1|]. split; [|split; [|split]].
    + intros x y k l Gx Gy. destruct (B5 x (All _ _ Gx)) as (k' & r & C1 & C2 & C3 & C4).
      destruct (B5 y (All _ _ Gy)) as (l' & s & D1 & D2 & D3 & D4).
      assert (k' = k) as -> by (unfold get in *; congruence). assert (l' = l) as -> by (unfold get in *; congruence). split.
      * intros ->. assert (s = r) as -> by congruence. eapply rst_trans; [apply rst_sym; exact C4|exact D4].
      * intros Rxy. eapply B8; [exact C2|exact D2|]. eapply rst_trans; [exact C4|]. eapply rst_trans; [exact Rxy|apply rst_sym; exact D4].
    + intros x k G. destruct (B5 x (All _ _ G)) as (k' & r & C1 & C2 & C3 & C4). exists r. split; [|exact C3].
      assert (k' = k) as -> by (unfold get in *; congruence). exact C2.
    + intros k r G. apply (B6 k r G).
    + intros k l r s Hkl Gk Gl. exact (B7 k l r s Hkl Gk Gl).
Qed.
End Orbits.
