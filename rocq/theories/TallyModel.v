(** Model of [TallyVec]: sources/utilities/tally.h and tally_def.h, with the binary
    input and output of sources/io/basic_io_def.h and basic_io.cpp.

    [Index] and [ullong] are [N] with reduction modulo 2^64. A vector is its list of
    entries together with its capacity; [reserve(n)] on an empty vector is taken to
    give capacity n, and [resize(n)] on a vector without storage capacity n, as in
    libstdc++. A [std::map] is the list of its entries by increasing key. A stream
    is the list of its bytes, and reading beyond its end gives 255, the conversion
    of EOF to [unsigned char]. [cw] is sizeof(Count). *)

From Coq Require Import List NArith Bool.
From Verif Require Import VecModel RunModel.
Import ListNotations.
Open Scope N_scope.

Definition w64 (x : N) : N := x mod 2 ^ 64.

(** *** std::map<Index,ullong> *)

(** find *)
Fixpoint m_find (k : N) (m : list (N * N)) : option N :=
  match m with
  | [] => None
  | (j, v) :: r => if j =? k then Some v else m_find k r
  end.
(** overflow[k]=v *)
Fixpoint m_put (k v : N) (m : list (N * N)) : list (N * N) :=
  match m with
  | [] => [(k, v)]
  | (j, u) :: r => if k <? j then (k, v) :: m else if j =? k then (k, v) :: r else (j, u) :: m_put k v r
  end.
(** overflow[k] as a value: an absent key is inserted with value 0 (the callers then assign) *)
Definition m_get (k : N) (m : list (N * N)) : N := match m_find k m with Some v => v | None => 0 end.
(** insert: nothing happens if the key is present *)
Definition m_insert (k v : N) (m : list (N * N)) : list (N * N) :=
  match m_find k m with Some _ => m | None => m_put k v m end.
(** lower_bound: the entries from the first one with key at least k *)
Fixpoint m_lower_bound (k : N) (m : list (N * N)) : list (N * N) :=
  match m with
  | [] => []
  | (j, v) :: r => if j <? k then m_lower_bound k r else m
  end.
(** the entries before lower_bound(k), nearest first *)
Fixpoint m_before (k : N) (m acc : list (N * N)) : list (N * N) :=
  match m with
  | [] => acc
  | (j, v) :: r => if j <? k then m_before k r ((j, v) :: acc) else acc
  end.

(** *** basic_io *)

(** basic_io_def.h:63-73 and basic_io.cpp:268-281 write_bytes<n>(val,out): the bytes written *)
Fixpoint write_bytes (n : nat) (val : N) : list N :=
  match n with
  | O => []
  | S O => [val mod 256]
  | S k => N.land val 255 :: write_bytes k (N.shiftr val 8)
  end.
(** basic_io.cpp:267 put_int: the argument is converted to 32 bits *)
Definition put_int (val : N) : list N := write_bytes 4 (val mod 2 ^ 32).
(** in.get() as unsigned char *)
Definition in_get (s : list N) : N * list N := match s with [] => (255, []) | b :: r => (b, r) end.
(** basic_io_def.h:50-60 read_bytes<n>(in). C++ leaves the order unspecified in which the operands
    of [+] are evaluated, both of which read from the stream: [left] tells whether the left one,
    [in.get()], comes first. *)
Fixpoint read_bytes (left : bool) (n : nat) (s : list N) : N * list N :=
  match n with
  | O => (0, s)
  | S O => in_get s
  | S k =>
      if left then
        let (b, s) := in_get s in let (r, s) := read_bytes left k s in (w64 (b + w64 (N.shiftl r 8)), s)
      else
        let (r, s) := read_bytes left k s in let (b, s) := in_get s in (w64 (b + w64 (N.shiftl r 8)), s)
  end.
(** basic_io.cpp:253-265 read_var_bytes *)
Definition read_var_bytes (left : bool) (n : nat) (s : list N) : res (N * list N) :=
  if Nat.leb 1 n && Nat.leb n 8 then Ok (read_bytes left n s) else Fail Thrown.

(** *** the class *)

(** tally.h:51-54 *)
Record tv := mk_tv { count : list N; capacity : N; overflow : list (N * N); max : N; total : N }.

(** tally.h:57-58 TallyVec(limit) *)
Definition tv_new (limit : N) : tv := mk_tv [] limit [] 0 0.
(** count.size() *)
Definition csize (t : tv) : N := N.of_nat (length (count t)).
(** tally.h:66 size() *)
Definition size (t : tv) : N := w64 (max t + 1).
(** tally.h:68 sum() *)
Definition sum (t : tv) : N := total t.

Section Count.
Variable cw : nat.
(** tally_def.h:12-13 *)
Definition maxCount : N := 2 ^ (8 * N.of_nat cw) - 1.
(** conversion to Count *)
Definition to_count (x : N) : N := x mod 2 ^ (8 * N.of_nat cw).

(** tally_def.h:15-22 *)
Definition multiplicity (t : tv) (i : N) : res N :=
  if i <? csize t then
    run c <- vget (count t) (N.to_nat i);
    if negb (c =? maxCount) then Ok c
    else match m_find i (overflow t) with Some v => Ok v | None => Fail Range end
  else Ok (match m_find i (overflow t) with Some v => v | None => 0 end).

(** tally_def.h:24-49 tally(i); the loop of push_back(0) is written as [repeat] *)
Definition tally (t : tv) (i : N) : res (bool * tv) :=
  let tot := w64 (total t + 1) in
  if i <? csize t then
    run c <- vget (count t) (N.to_nat i);
    if negb (c =? maxCount) then
      let c := to_count (c + 1) in
      run cs <- vput (count t) (N.to_nat i) c;
      if c =? maxCount then
        Ok (false, mk_tv cs (capacity t) (m_put i maxCount (overflow t)) (max t) tot)
      else Ok (c =? 1, mk_tv cs (capacity t) (overflow t) (max t) tot)
    else
      Ok (false, mk_tv (count t) (capacity t) (m_put i (w64 (m_get i (overflow t) + 1)) (overflow t)) (max t) tot)
  else
    let mx := if max t <? i then i else max t in
    if i <? capacity t then
      Ok (true, mk_tv (count t ++ repeat 0 (N.to_nat (i - csize t)) ++ [1]) (capacity t) (overflow t) mx tot)
    else
      match m_find i (overflow t) with
      | None => Ok (true, mk_tv (count t) (capacity t) (m_put i 1 (overflow t)) mx tot)
      | Some v => Ok (false, mk_tv (count t) (capacity t) (m_put i (w64 (v + 1)) (overflow t)) mx tot)
      end.

(** tally_def.h:51-91 tally(i,multiplicity) *)
Definition tally_many (t : tv) (i m : N) : res (bool * tv) :=
  let tot := w64 (total t + m) in
  if i <? csize t then
    run c <- vget (count t) (N.to_nat i);
    if negb (c =? maxCount) then
      if w64 (c + m) <? maxCount then
        run cs <- vput (count t) (N.to_nat i) (to_count (c + m));
        Ok (c =? 0, mk_tv cs (capacity t) (overflow t) (max t) tot)
      else
        run cs <- vput (count t) (N.to_nat i) maxCount;
        Ok (false, mk_tv cs (capacity t) (m_put i (w64 (c + m)) (overflow t)) (max t) tot)
    else
      Ok (false, mk_tv (count t) (capacity t) (m_put i (w64 (m_get i (overflow t) + m)) (overflow t)) (max t) tot)
  else
    let mx := if max t <? i then i else max t in
    if i <? capacity t then
      let zeros := repeat 0 (N.to_nat (i - csize t)) in
      if maxCount <=? m then
        Ok (true, mk_tv (count t ++ zeros ++ [maxCount]) (capacity t) (m_put i m (overflow t)) mx tot)
      else
        Ok (true, mk_tv (count t ++ zeros ++ [to_count m]) (capacity t) (overflow t) mx tot)
    else
      match m_find i (overflow t) with
      | None => Ok (true, mk_tv (count t) (capacity t) (m_put i m (overflow t)) mx tot)
      | Some v => Ok (false, mk_tv (count t) (capacity t) (m_put i (w64 (v + m)) (overflow t)) mx tot)
      end.

(** tally_def.h:93-107 advance: the new value of i. The assertion is absent from a release
    build, so that dereferencing end() is undefined. *)
Definition advance (t : tv) (i : N) : res N :=
  if max t <=? i then Ok (size t)
  else
    run i <- loop (length (count t))
               (fun i => if i <? csize t then run c <- vget (count t) (N.to_nat i); Ok (c =? 0) else Ok false)
               (fun i => Ok (i + 1)) (i + 1);
    if i <? csize t then Ok i
    else match m_lower_bound i (overflow t) with (j, _) :: _ => Ok j | [] => Fail Range end.

(** tally_def.h:122-125: while (i-->0) if (count[i]!=0) return true; return false *)
Fixpoint lower_count (c : list N) (i : nat) : res (bool * N) :=
  match i with
  | O => Ok (false, 2 ^ 64 - 1)
  | S k => run x <- vget c k; if negb (x =? 0) then Ok (true, N.of_nat k) else lower_count c k
  end.
(** tally_def.h:109-126 lower: the result and the new value of i *)
Definition lower (t : tv) (i : N) : res (bool * N) :=
  if csize t <? i then
    match m_before i (overflow t) [] with
    | (j, _) :: _ => if csize t <=? j then Ok (true, j) else lower_count (count t) (length (count t))
    | [] => lower_count (count t) (length (count t))
    end
  else lower_count (count t) (N.to_nat i).

(** tally_def.h:128-141 write_to: the bytes written *)
Definition write_to (t : tv) : list N :=
  put_int (csize t) ++ put_int (N.of_nat (length (overflow t))) ++
  flat_map (write_bytes cw) (count t) ++
  flat_map (fun e => write_bytes 8 (fst e) ++ write_bytes 8 (snd e)) (overflow t).

(** tally_def.h:151-152 and 170-171 *)
Fixpoint read_counts (left : bool) (n : nat) (s : list N) : list N * list N :=
  match n with
  | O => ([], s)
  | S k => let (c, s) := read_bytes left cw s in
           let (cs, s) := read_counts left k s in (to_count c :: cs, s)
  end.
(** tally_def.h:153-159 and 172-178, with the function that reads a key and the one that reads a value *)
Fixpoint read_overflow (rk rv : list N -> res (N * list N)) (n : nat) (m : list (N * N)) (mx : N) (s : list N)
  : res (list (N * N) * N * list N) :=
  match n with
  | O => Ok (m, mx, s)
  | S k =>
      run (key, s) <- rk s;
      let mx := if mx <? key then key else mx in
      run (v, s) <- rv s;
      read_overflow rk rv k (m_insert key v m) mx s
  end.
Definition read_with (left : bool) (rk rv : list N -> res (N * list N)) (s : list N) : res tv :=
  let (n, s) := read_bytes left 4 s in
  let mx := if n =? 0 then 0 else n - 1 in
  let (o, s) := read_bytes left 4 s in
  let (cs, s) := read_counts left (N.to_nat n) s in
  run (m, mx, _) <- read_overflow rk rv (N.to_nat o) [] mx s;
  Ok (mk_tv cs n m mx 0).
(** tally_def.h:143-160 TallyVec(file) *)
Definition tv_read (left : bool) (s : list N) : res tv :=
  read_with left (fun s => Ok (read_bytes left 8 s)) (fun s => Ok (read_bytes left 8 s)) s.
(** tally_def.h:162-179 TallyVec(file,w_key,w_val) *)
Definition tv_read_widths (left : bool) (w_key w_val : nat) (s : list N) : res tv :=
  read_with left (read_var_bytes left w_key) (read_var_bytes left w_val) s.
End Count.

(** tally_def.h:181-189 derived: [mw] is sizeof(MuCount) *)
Definition derived (cw mw : nat) (t : tv) (limit : N) : res tv :=
  run (_, mu) <- tally mw (tv_new limit) 0;
  run (mu, _) <- loop (length (count t) + length (overflow t) + 1)
                   (fun '(_, i) => Ok (i <? size t))
                   (fun '(mu, i) => run m <- multiplicity cw t i; run (_, mu) <- tally mw mu m;
                                    run i <- advance t i; Ok (mu, i))
                   (mu, 0);
  Ok mu.
