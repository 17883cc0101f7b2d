(** Model of sources/utilities/graph.h and graph.cpp: oriented graphs, their strong
    components, and the reduction by bidirectional edges. Vertices and sequence
    numbers (unsigned int in the code) are [nat]: the number of vertices is
    supposed to be less than 2^32-1. A std::set<Vertex> is a strictly increasing list. *)

From Coq Require Import List Arith Bool.
From Verif Require Import VecModel PartModel.
Import ListNotations.
Open Scope nat_scope.
Open Scope vec_scope.

(** graph.h:38 d_edges *)
Definition graph := list (list nat).

(** std::set::insert *)
Fixpoint set_insert (x : nat) (s : list nat) : list nat :=
  match s with
  | [] => [x]
  | y :: t => if x <? y then x :: s else if x =? y then s else y :: set_insert x t
  end.
(** std::set::erase *)
Definition set_erase (x : nat) (s : list nat) : list nat := filter (fun y => negb (y =? x)) s.

(** graph.cpp:361-374 add_links; newVertex appends an edge list *)
Definition add_links (gr : graph) (out : list (list nat)) (pi : partition) : option graph :=
  let c := length gr in
  do seen <- for_each out (fun l seen => for_each l (fun e seen => do k <- class_of pi e; Some (set_insert k seen)) seen) [];
  Some (gr ++ [set_erase c seen]).

(** graph.cpp:172-182 info *)
Record info := mk_info { v : nat; parent : nat; next_edge : nat; min : nat }.
(** the local variables of |cells|, graph.cpp:188-211; |gr| is what |*gr| gets if it is wanted *)
Record state := mk_state { rank : list nat; active : list info; pi : partition; gr : graph; count : nat; cur_pos : nat }.

(** one round of the loops at graph.cpp:213-263: either one edge of the current
    vertex is considered, lines 219-235, or the current vertex matures, lines 237-262 *)
Definition cells_step (g : graph) (s : state) : option state :=
  let infinity := S (length g) in
  do x <- get (active s) (cur_pos s);
  do edges <- get g (v x);
  if next_edge x <? length edges then
    do y <- get edges (next_edge x);
    let x := mk_info (v x) (parent x) (S (next_edge x)) (min x) in
    do act <- put (active s) (cur_pos s) x;
    do ry <- get (rank s) y;
    if ry =? 0 then
      do rk <- put (rank s) y (count s);
      Some (mk_state rk (act ++ [mk_info y (cur_pos s) 0 (count s)]) (pi s) (gr s) (S (count s)) (length act))
    else if ry <? min x then
      do act <- put act (cur_pos s) (mk_info (v x) (parent x) (next_edge x) ry);
      Some (mk_state (rank s) act (pi s) (gr s) (count s) (cur_pos s))
    else Some (mk_state (rank s) act (pi s) (gr s) (count s) (cur_pos s))
  else
    let new_pos := parent x in
    do rx <- get (rank s) (v x);
    if min x =? rx then
      do (p, c) <- new_class (pi s) (v x);
      do (p, rk, out) <- for_each (skipn (cur_pos s) (active s)) (fun it '(p, rk, out) =>
        let y := v it in
        do p <- addToClass p c y;
        do rk <- put rk y infinity;
        do l <- get g y;
        Some (p, rk, out ++ [l])) (p, rank s, []);
      do h <- add_links (gr s) out p;
      Some (mk_state rk (firstn (cur_pos s) (active s)) p h (count s) new_pos)
    else
      do q <- get (active s) new_pos;
      do act <- (if min x <? min q then put (active s) new_pos (mk_info (v q) (parent q) (next_edge q) (min x)) else Some (active s));
      Some (mk_state (rank s) act (pi s) (gr s) (count s) new_pos).

(** the number of edges *)
Definition edge_count (g : graph) : nat := list_sum (map (@length nat) g).

(** graph.cpp:186-294 cells; |nil| is size(); the fuel is the number of edges plus that of vertices *)
Definition cells (g : graph) : option (partition * graph) :=
  let n := length g in
  let infinity := S n in
  do s <- for_up n 0 (fun x0 s =>
    do r <- get (rank s) x0;
    if r <? infinity then
      do rk <- put (rank s) x0 1;
      while (edge_count g + n) (fun s => Some (negb (cur_pos s =? n))) (cells_step g)
        (mk_state rk (active s ++ [mk_info x0 n 0 1]) (pi s) (gr s) 2 0)
    else Some s) (mk_state (repeat 0 n) [] (empty_partition n) [] 1 n);
  Some (pi s, gr s).

(** graph.cpp:316-327 reverseEdges *)
Definition reverseEdges (g : graph) : option graph :=
  for_up (length g) 0 (fun x new_edges =>
    do el <- get g x;
    for_each el (fun y new_edges => do l <- get new_edges y; put new_edges y (l ++ [x])) new_edges) (repeat [] (length g)).

(** graph.cpp:329-342 reverseNumbering; |last-el[j]| is computed modulo 2^32 in the code, here it is cut off at 0 *)
Definition reverseNumbering (g : graph) : option graph :=
  let last := length g - 1 in
  for_up (length g) 0 (fun x new_edges =>
    do el <- get g x;
    do l <- for_down (length el) (fun j l => do y <- get el j; Some (l ++ [last - y])) [];
    put new_edges (last - x) l) (repeat [] (length g)).

(** std::binary_search: for |x| in the increasing sequence [l]: the first element
    not less than |x|, found by halving (std::lower_bound), is not more than |x| *)
Fixpoint lower_bound (fuel : nat) (l : list nat) (from len x : nat) : option nat :=
  match fuel with
  | O => None
  | S fuel =>
      if len =? 0 then Some from else
      let half := Nat.div2 len in
      do y <- get l (from + half);
      if y <? x then lower_bound fuel l (S (from + half)) (len - half - 1) x else lower_bound fuel l from half x
  end.
Definition binary_search (l : list nat) (x : nat) : option bool :=
  do i <- lower_bound (S (length l)) l 0 (length l) x;
  if i =? length l then Some false else do y <- get l i; Some (negb (x <? y)).

(** graph.cpp:51-54: follow |min_rep| from |v|, listing what is passed in |component|; the fuel suffices as |v| decreases *)
Fixpoint climb (fuel : nat) (min_rep : list nat) (v : nat) (component : list nat) : option (nat * list nat) :=
  do m <- get min_rep v;
  if m <? v then
    match fuel with
    | O => None
    | S fuel => climb fuel min_rep m (component ++ [v])
    end
  else Some (v, component).
(** graph.cpp:49-62: join the components of |i| and |target| *)
Definition join (min_rep : list nat) (i target : nat) : option (list nat) :=
  do (v, component) <- climb i min_rep i [];
  do (w, component) <- climb target min_rep target component;
  let '(v, component) := if w <? v then (w, component ++ [v]) else if v <? w then (v, component ++ [w]) else (v, component) in
  for_each component (fun c min_rep => put min_rep c v) min_rep.
(** graph.cpp:37-94 to_unoriented_components: the partition, and the graph that replaces the original *)
Definition to_unoriented_components (g : graph) : option (partition * graph) :=
  let n := length g in
  do min_rep <- for_up n 0 (fun i min_rep =>
    do el <- get g i;
    for_each el (fun target min_rep =>
      if target <? i then
        do l <- get g target;
        do b <- binary_search l i;
        if b : bool then join min_rep i target else Some min_rep
      else Some min_rep) min_rep) (seq 0 n);
  do (p, min_rep) <- for_up n 0 (fun i '(p, min_rep) =>
    do m <- get min_rep i;
    if m =? i then do (p, _) <- new_class p i; Some (p, min_rep)
    else
      do mm <- get min_rep m;
      do min_rep <- put min_rep i mm;
      do c <- class_of p mm;
      do p <- addToClass p c i;
      Some (p, min_rep)) (empty_partition n, min_rep);
  do new_links <- for_up n 0 (fun i new_links =>
    do ci <- class_of p i;
    do el <- get g i;
    for_each el (fun target new_links =>
      do ct <- class_of p target;
      if negb (ci =? ct) then do s <- get new_links ci; put new_links ci (set_insert ct s) else Some new_links) new_links)
    (repeat [] (classCount p));
  Some (p, new_links).
