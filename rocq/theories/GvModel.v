(** Model of the second form of GlobalTitsGroup::is_valid, sources/structure/tits.cpp:144-153. *)

From Coq Require Import List Arith ZArith Bool.
From Verif Require Import RunModel VecModel MatModel RootModel DatModel YvModel SsModel GtModel.
Import ListNotations.
Open Scope nat_scope.

(** tits.cpp:145-153; the entries of the matrix before the loop are all overwritten, see C177_sub *)
Definition gt_valid_sub (G : global) (sub : subsys) (a : gelt) : res bool :=
  let sr := s_rank (ss_sys sub) in
  let rk := d_rank (ss_par sub) in
  run alpha <- upto sr 0 (fun s M => run p <- vget (ss_pos sub) s; run c <- d_coroot (ss_par sub) p; set_column M s c)
    (mk_mat rk sr (repeat 0%Z (rk * sr)));
  run y <- square_shifted G a;
  is_central to_int alpha y.
