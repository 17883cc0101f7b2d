(** Dynkin diagrams and their classification: sources/structure/dynkin.h and dynkin.cpp.

    A RankFlags is a BitSet<32>, modelled by its single chunk as in [BitsetModel] (with
    constants::RANK_MAX = 32).  A node number is a [nat].  Setting a bit at a position of
    32 or more is undefined in C++ (shift count too large, or not kept) and is
    [Fail Range]; so is reading outside a vector or matrix, or past the end of the list
    of components.  Every [error::Cartan_error] is [Fail Thrown].  Matrix entries are C++
    ints; the single product of entries (of two numbers from -3 to -1) cannot overflow. *)

From Coq Require Import List Arith ZArith Bool.
From Verif Require Import VecModel RunModel MatModel BitsModel BitmapModel BitsetModel LieTypeModel.
Import ListNotations.
Local Close Scope Z_scope.

(** dynkin.h:66-75, comp_info; [offset] is an unsigned char *)
Record comp := mk_comp { c_type : letter; c_offset : nat; c_support : Z; c_position : list nat }.
(** dynkin.h:77-84: d_star, down_edges and comps *)
Record diagram := mk_diagram {
  d_star : list Z;
  d_down : list (nat * nat * Z);
  d_comps : list comp }.

(** RankFlags operations at a node number *)
Definition nset (a : Z) (i : nat) : res Z := if i <? 32 then Ok (set1 a (Z.of_nat i)) else Fail Range.
Definition nreset (a : Z) (i : nat) : Z := reset1 a (Z.of_nat i).
Definition ntest (a : Z) (i : nat) : bool := test1 a (Z.of_nat i).
Definition nfirst (a : Z) : nat := Z.to_nat (firstBit1 a).
Definition ncount (a : Z) : nat := Z.to_nat (count1 a).
(** the elements visited by the iterator over a set (bitset.h:398-446), in order *)
Definition nlist (a : Z) : list nat := rev (for_bits 64 (fun i _ l => Z.to_nat i :: l) a 0%Z []).

(** dynkin.cpp:28-52, the constructor up to the call of classify: the entry (i,j) *)
Definition read_entry (c : matrix Z) (i j : nat) (s : list Z * list (nat * nat * Z))
    : res (list Z * list (nat * nat * Z)) :=
  run x <- mget c i j;
  if negb (i =? j) then
    if (x <? -3)%Z then Fail Thrown
    else if (0 <? x)%Z then Fail Thrown
    else if negb (x =? 0)%Z then
      run y <- mget c j i;
      if (y =? 0)%Z then Fail Thrown
      else
        run sj <- vget (fst s) j;
        run sj1 <- nset sj i;
        run star1 <- vput (fst s) j sj1;
        Ok (star1, if (x <? -1)%Z then snd s ++ [(i, j, (- x)%Z)] else snd s)
    else Ok s
  else if negb (x =? 2)%Z then Fail Thrown else Ok s.
Definition read_matrix (c : matrix Z) : res (list Z * list (nat * nat * Z)) :=
  upto (mrows c) 0 (fun i s => upto (mcols c) 0 (fun j s1 => read_entry c i j s1) s)
    (repeat 0%Z (mcols c), []).

(** dynkin.cpp:57-77, the components: node [i] with neighbours [st] joins the first
    component it meets, into which the later ones it meets are merged *)
Fixpoint absorb (st : Z) (sup : Z) (cs : list comp) : Z * list comp :=
  match cs with
  | [] => (sup, [])
  | c :: rest =>
    if any1 (and1 (c_support c) st) then absorb st (or1 sup (c_support c)) rest
    else let '(sup1, rest1) := absorb st sup rest in (sup1, c :: rest1)
  end.
Fixpoint join (i : nat) (st : Z) (cs : list comp) : res (list comp) :=
  match cs with
  | [] => Fail Range
  | c :: rest =>
    if none1 (and1 (c_support c) st) then run r <- join i st rest; Ok (c :: r)
    else
      run sup0 <- nset (c_support c) i;
      let '(sup, rest1) := absorb st sup0 rest in
      Ok (mk_comp (c_type c) (c_offset c) sup (c_position c) :: rest1)
  end.
(** dynkin.h:73, comp_info(i) *)
Definition new_comp (i : nat) : res comp :=
  run s <- nset 0%Z i; Ok (mk_comp tT 255 s []).
Definition find_comps (star : list Z) : res (list comp) :=
  upto (length star) 0 (fun i cs =>
    run st <- vget star i;
    if (Z.land st (lt_mask (Z.of_nat i)) =? 0)%Z then run c <- new_comp i; Ok (cs ++ [c])
    else join i st cs) [].

(** dynkin.cpp:125-142, the loop over a component collecting [fork] and [extremities];
    [None] stands for the out of bounds value rank() *)
Fixpoint scan_nodes (star : list Z) (nodes : list nat) (fork : option nat) (ext : Z)
    : res (option nat * Z) :=
  match nodes with
  | [] => Ok (fork, ext)
  | i :: rest =>
    run st <- vget star i;
    let degree := ncount st in
    if negb (degree =? 2) then
      if degree <? 2 then run e <- nset ext i; scan_nodes star rest fork e
      else if degree =? 3 then
        match fork with
        | None => scan_nodes star rest (Some i) ext
        | Some _ => Fail Thrown
        end
      else Fail Thrown
    else scan_nodes star rest fork ext
  end.
(** dynkin.cpp:148-157, the loop over the labelled edges, setting (upper,lower) *)
Fixpoint scan_edges (down : list (nat * nat * Z)) (support : Z) (ul : option (nat * nat))
    : res (option (nat * nat)) :=
  match down with
  | [] => Ok ul
  | (a, b, l) :: rest =>
    if ntest support a then
      if (l =? 3)%Z then Fail Thrown
      else match ul with
           | None => scan_edges rest support (Some (a, b))
           | Some _ => Fail Thrown
           end
    else scan_edges rest support ul
  end.
(** dynkin.cpp:159-166, the type; it comes with the data the later code uses for it *)
Inductive found :=
| FA | FB (lower : nat) | FC (upper : nat) | FD (fork : nat) | FE (fork : nat) | FF (lower : nat).
Definition find_type (star : list Z) (fork : option nat) (ext : Z) (ul : option (nat * nat)) : res found :=
  match ul with
  | None =>
    match fork with
    | None => Ok FA
    | Some f => run sf <- vget star f;
                Ok (if ncount (and1 sf ext) =? 1 then FE f else FD f)
    end
  | Some (upper, lower) =>
    match fork with
    | None => Ok (if ntest ext lower then FB lower else if ntest ext upper then FC upper else FF lower)
    | Some _ => Fail Thrown
    end
  end.
Definition letter_of (t : found) : letter :=
  match t with FA => tA | FB _ => tB | FC _ => tC | FD _ => tD | FE _ => tE | FF _ => tF end.
(** dynkin.cpp:168-207: the starting node, the set of remaining nodes and the positions
    already placed *)
Definition find_start (star : list Z) (t : found) (rank : nat) (support ext : Z)
    : res (nat * Z * list nat) :=
  match t with
  | FA => Ok (nfirst ext, support, [])
  | FB lower => Ok (nfirst (nreset ext lower), support, [])
  | FC upper => Ok (nfirst (nreset ext upper), support, [])
  | FD fork =>
    if rank =? 4 then Ok (nfirst ext, support, [])
    else run sf <- vget star fork;
         let e := andnot1 ext sf in
         if 1 <? ncount e then Fail Thrown else Ok (nfirst e, support, [])
  | FE fork =>
    if 8 <? rank then Fail Thrown
    else
      run sf <- vget star fork;
      let short := and1 ext sf in
      let ext1 := andnot1 ext short in
      let start := nfirst ext1 in
      run ss <- vget star start;
      let start2 := if none1 (and1 ss sf) then nfirst (nreset ext1 start) else start in
      run ss2 <- vget star start2;
      if none1 (and1 ss2 sf) then Fail Thrown
      else Ok (nfirst (and1 ss2 sf), andnot1 (nreset support start2) short, [start2; nfirst short])
  | FF lower =>
    if 4 <? rank then Fail Thrown
    else run sl <- vget star lower;
         Ok (nfirst (andnot1 ext sl), support, [])
  end.
(** dynkin.cpp:209-218, traversal of the remaining nodes.  When there is no candidate and
    the type is not D, the C++ code (without assertions) would go on for ever: [Fail Fuel] *)
Fixpoint traverse (fuel : nat) (star : list Z) (isD : bool) (start : nat) (remain : Z) (pos : list nat)
    : res (list nat) :=
  match fuel with
  | O => Fail Fuel
  | S k =>
    let pos1 := pos ++ [start] in
    let rem1 := nreset remain start in
    if any1 rem1 then
      run ss <- vget star start;
      let cand := and1 ss rem1 in
      if any1 cand then traverse k star isD (nfirst cand) rem1 pos1
      else if isD then traverse k star isD (nfirst rem1) rem1 pos1
      else Fail Fuel
    else Ok pos1
  end.

(** dynkin.cpp:94-220, classify of one component: its type and positions *)
Definition classify_comp (c : matrix Z) (star : list Z) (down : list (nat * nat * Z)) (support : Z)
    : res (letter * list nat) :=
  let rank := ncount support in
  if rank <=? 2 then
    if rank =? 1 then Ok (tA, [nfirst support])
    else
      match nlist support with
      | i :: j :: _ =>
        run x <- mget c i j;
        run y <- mget c j i;
        let increase := (x =? -1)%Z in
        if (x * y =? 1)%Z then Ok (tA, [i; j])
        else if (x * y =? 2)%Z then Ok (if increase then tC else tB, [i; j])
        else if (x * y =? 3)%Z then Ok (tG, if increase then [i; j] else [j; i])
        else Fail Thrown
      | _ => Fail Range
      end
  else
    run fe <- scan_nodes star (nlist support) None 0%Z;
    let '(fork, ext) := fe in
    if ncount ext <? 2 then Fail Thrown
    else
      run ul <- scan_edges down support None;
      run t <- find_type star fork ext ul;
      run sp <- find_start star t rank support ext;
      let '(start, remain, pos) := sp in
      run p <- traverse (S rank) star (leqb (letter_of t) tD) start remain pos;
      Ok (letter_of t, p).
(** dynkin.cpp:79-89, offsets and classification of all components *)
Fixpoint classify_all (c : matrix Z) (star : list Z) (down : list (nat * nat * Z)) (cs : list comp) (i : nat)
    : res (list comp) :=
  match cs with
  | [] => Ok []
  | k :: rest =>
    run tp <- classify_comp c star down (c_support k);
    run r <- classify_all c star down rest (i + ncount (c_support k));
    Ok (mk_comp (fst tp) i (c_support k) (snd tp) :: r)
  end.

(** dynkin.cpp:28-90, the constructor *)
Definition dynkin (c : matrix Z) : res diagram :=
  run sd <- read_matrix c;
  run cs <- find_comps (fst sd);
  run cs1 <- classify_all c (fst sd) (snd sd) cs 0;
  Ok (mk_diagram (fst sd) (snd sd) cs1).

(** dynkin.cpp:267-276, DynkinDiagram::Cartan_entry *)
Fixpoint find_edge (down : list (nat * nat * Z)) (i j : nat) : Z :=
  match down with
  | [] => (-1)%Z
  | (a, b, l) :: rest => if (a =? i) && (b =? j) then (- l)%Z else find_edge rest i j
  end.
Definition d_entry (d : diagram) (i j : nat) : res Z :=
  run si <- vget (d_star d) i;
  Ok (if negb (ntest si j) then (if i =? j then 2%Z else 0%Z) else find_edge (d_down d) i j).
(** dynkin.h:103-104, edge_multiplicity *)
Definition edge_multiplicity (d : diagram) (i j : nat) : res Z :=
  run x <- d_entry d i j; run y <- d_entry d j i; Ok (x * y)%Z.

(** dynkin.cpp:278-287, type; a rank above RANK_MAX throws *)
Definition d_rank (d : diagram) : nat := length (d_star d).
Definition d_type (d : diagram) : res lietype :=
  if 32 <? d_rank d then Fail Thrown
  else Ok (map (fun c => (c_type c, length (c_position c))) (d_comps d)).
(** dynkin.cpp:289-296, perm *)
Definition d_perm (d : diagram) : list nat := flat_map c_position (d_comps d).

(** dynkin.cpp:301-304, Lie_type without permutation *)
Definition lie_type (c : matrix Z) : res lietype := run d <- dynkin c; d_type d.
(** dynkin.cpp:310-337, Lie_type with permutation, in the release build *)
Definition lie_type_perm (c : matrix Z) : res (lietype * list nat) :=
  if negb (mrows c =? mcols c) then Fail Thrown
  else run d <- dynkin c; run t <- d_type d; Ok (t, d_perm d).

(** dynkin.cpp:339-347, permute *)
Definition permute (pi : list nat) (d : diagram) : res diagram :=
  let r := d_rank d in
  run M <- upto r 0 (fun i M1 => upto r 0 (fun j M2 =>
             run a <- vget pi i; run b <- vget pi j; run x <- d_entry d i j; mput M2 a b x) M1)
           (mat_fill r r 0%Z);
  dynkin M.
