(** Model of Weyl groups: sources/structure/weyl.h and weyl.cpp (first two chapters).

    Numbers of generators ([Generator]) and of pieces ([EltPiece]) are of type unsigned
    char; they are [nat] here. The undefined value 255 is [None] in the tables local to
    the constructor of [Transducer], and the constructor fails with [Overflow] when it
    would make state number 255. The generators of words, permutations etc. are below
    RANK_MAX=32. Assertions are not part of the code (the library is compiled with
    NDEBUG). *)

From Coq Require Import List Arith ZArith Bool Ascii.
From Verif Require Import VecModel RunModel SizeModel.
Import ListNotations.
Open Scope nat_scope.

Definition rank_max : nat := 32.
(** weyl.cpp:130-131 *)
Definition max_piece_length : nat := Nat.max 57 (2 * rank_max - 1).

(** Coxeter_entry, weyl.cpp:191-216 *)
Definition is_letter (l : list ascii) (c : ascii) : bool := existsb (Ascii.eqb c) l.
Definition Coxeter_entry (type : ascii) (i j : nat) : nat :=
  let '(i, j) := if j <? i then (j, i) else (i, j) in
  if negb (is_letter ["D"; "E"]%char type) then
    match j - i with
    | 0 => 1
    | 1 =>
        if is_letter ["A"%char] type || (is_letter ["B"; "C"]%char type && (0 <? i)) || (is_letter ["F"%char] type && negb (i =? 1)) then 3
        else if is_letter ["G"%char] type then 6 else 4
    | _ => 2
    end
  else if i =? 0 then (if j =? 2 then 3 else 2)
  else if is_letter ["E"%char] type && (i =? 1) then (if j =? 3 then 3 else 2)
  else if j - i =? 1 then 3 else 2.

(** *** the constructor of Transducer *)

(** local struct entry, weyl.cpp:296-301 *)
Record entry := mk_entry { e_shift : list (option nat); e_out : list (option nat) }.
Definition new_entry : entry := mk_entry (repeat None rank_max) (repeat None rank_max).
(** elem_info, weyl.cpp:105-110: length and rightmost letter *)
Record elem_info := mk_info { i_length : nat; i_right : option nat }.

Definition get_shift (tab : list entry) (x s : nat) : res (option nat) := run e <- vget tab x; vget (e_shift e) s.
Definition get_out (tab : list entry) (x s : nat) : res (option nat) := run e <- vget tab x; vget (e_out e) s.
Definition set_shift (tab : list entry) (x s : nat) (v : option nat) : res (list entry) :=
  run e <- vget tab x; run l <- vput (e_shift e) s v; vput tab x (mk_entry l (e_out e)).
Definition set_out (tab : list entry) (x s : nat) (v : option nat) : res (list entry) :=
  run e <- vget tab x; run l <- vput (e_out e) s v; vput tab x (mk_entry (e_shift e) l).

(** the loop of weyl.cpp:348-361: from [b] follow [t], [s], [t], ... while the number decreases *)
Fixpoint lowest (fuel : nat) (tab : list entry) (b t s : nat) : res nat :=
  match fuel with
  | O => Fail Fuel
  | S f =>
      run next <- get_shift tab b t;
      match next with
      | Some c => if c <? b then lowest f tab c s t else Ok b
      | None => Ok b
      end
  end.
(** the loop of weyl.cpp:368-386: [k] steps from [y] along [u], [v], [u], ... *)
Fixpoint climb (k : nat) (tab : list entry) (y u v : nat) : res nat :=
  match k with
  | O => Ok y
  | S k => run next <- get_shift tab y u; run z <- of_option next; climb k tab z v u
  end.

(** the body of the loop on [t], weyl.cpp:343-404 *)
Definition define_shift (type : ascii) (elt : list elem_info) (x xs s t : nat) (tab : list entry) : res (list entry) :=
  if t =? s then Ok tab
  else
    run b <- lowest (S x) tab x t s;
    run top <- vget elt xs; run bot <- vget elt b;
    let d := i_length top - i_length bot in
    let m := Coxeter_entry type s t in
    let st := fun i => if i =? 0 then s else t in
    if d =? m then
      run y <- climb (m - 1) tab b (st (m mod 2)) (st (1 - m mod 2));
      run tab <- set_shift tab xs t (Some y);
      set_shift tab y t (Some xs)
    else if d =? m - 1 then
      let u := st (1 - m mod 2) in
      run o <- get_shift tab b u;
      match o with
      | Some c =>
          if c =? b then
            run tab <- set_shift tab xs t (Some xs);
            run g <- get_out tab b u;
            set_out tab xs t g
          else Ok tab
      | None => Ok tab
      end
    else Ok tab.

(** the body of the loop on [s], weyl.cpp:320-407 *)
Definition extend_state (type : ascii) (r x s : nat) (st : list elem_info * list entry) : res (list elem_info * list entry) :=
  let '(elt, tab) := st in
  run o <- get_shift tab x s;
  match o with
  | Some _ => Ok (elt, tab)
  | None =>
      let xs := length elt in
      if 255 <=? xs then Fail Overflow
      else
        run ex <- vget elt x;
        let elt := elt ++ [mk_info (S (i_length ex)) (Some s)] in
        let tab := tab ++ [new_entry] in
        run tab <- set_shift tab x s (Some xs);
        run tab <- set_shift tab xs s (Some x);
        run tab <- upto (S r) 0 (define_shift type elt x xs s) tab;
        Ok (elt, tab)
  end.

(** weyl.cpp:97-178; the table has a row for each state, of [limit] entries *)
Record transducer := mk_tr { tr_offset : nat; tr_limit : nat; tr_elt : list elem_info; tr_table : list (list nat) }.

(** weyl.cpp:288-318: the tables after construction of all states *)
Definition make_states (type : ascii) (r : nat) : res (list elem_info * list entry) :=
  let tab := [new_entry] in
  run tab <- upto r 0 (fun i tab => run tab <- set_shift tab 0 i (Some 0); set_out tab 0 i (Some i)) tab;
  run (_, elt, tab) <- loop 256 (fun '(x, elt, _) => Ok (x <? length elt))
    (fun '(x, elt, tab) =>
       run (elt, tab) <- upto (S r) 0 (extend_state type r x) (elt, tab);
       Ok (S x, elt, tab)) (0, [mk_info 0 None], tab);
  Ok (elt, tab).
(** weyl.cpp:409-415: the entries of [table], which are of type unsigned char *)
Definition table_entry (size : nat) (e : entry) (i j : nat) : res nat :=
  run o <- vget (e_out e) j;
  match o with
  | None => run c <- vget (e_shift e) j; of_option c
  | Some g => if size + g <? 256 then Ok (size + g) else Fail Overflow
  end.
Definition make_row {A} (n : nat) (f : nat -> res A) : res (list A) :=
  upto n 0 (fun i l => run x <- f i; Ok (l ++ [x])) [].
Definition make_transducer (type : ascii) (offset r : nat) : res transducer :=
  run (elt, tab) <- make_states type r;
  run table <- make_row (length tab) (fun i => run e <- vget tab i; make_row (S r) (table_entry (length tab) e i));
  Ok (mk_tr offset (S r) elt table).

(** *** accessors of Transducer, weyl.cpp:134-178, 418-434 *)
Definition tr_size (tr : transducer) : nat := length (tr_elt tr).
Definition tr_length (tr : transducer) (x : nat) : res nat := run e <- vget (tr_elt tr) x; Ok (i_length e).
Definition tr_max_length (tr : transducer) : res nat := tr_length tr (tr_size tr - 1).
Definition table_at (tr : transducer) (x s : nat) : res nat := run row <- vget (tr_table tr) x; vget row s.
Definition has_shift (tr : transducer) (x s : nat) : res bool := run v <- table_at tr x s; Ok (v <? tr_size tr).
Definition tr_out (tr : transducer) (x s : nat) : res nat := run v <- table_at tr x s; Ok (v - tr_size tr).
Definition tr_shift (tr : transducer) (x s : nat) : res nat := table_at tr x s.
(** the generator, and the new [x] *)
Definition unshift (tr : transducer) (x : nat) : res (nat * nat) :=
  run e <- vget (tr_elt tr) x; run s <- of_option (i_right e); run y <- tr_shift tr x s; Ok (s, y).
(** the loops "while (x>0) ... unshift(x)": the letters, the last one of the word first *)
Definition letters (tr : transducer) (x : nat) : res (list nat) :=
  run (_, l) <- loop 256 (fun '(x, _) => Ok (0 <? x)) (fun '(x, l) => run (s, y) <- unshift tr x; Ok (y, l ++ [s])) (x, []);
  Ok l.
Definition word_of_piece (tr : transducer) (x : nat) : res (list nat) :=
  run l <- letters tr x; Ok (rev (map (fun s => s + tr_offset tr) l)).

(** *** WeylGroup *)

(** a diagram component as DynkinDiagram gives it (dynkin.h:66-75) *)
Record component := mk_comp { c_type : ascii; c_offset : nat; c_position : list nat }.
(** weyl.h:257-261 *)
Record weyl_group := mk_weyl {
  w_transducer : list transducer; w_in : list nat; w_out : list nat; w_min_star : list nat; w_upper : list nat }.

(** inner_commutes, weyl.cpp:794-803 *)
Definition inner_commutes (trs : list transducer) (upper : list nat) (s t : nat) : res bool :=
  run us <- vget upper s; run ut <- vget upper t;
  if negb (us =? ut) then Ok true
  else
    let '(s, t) := if t <? s then (t, s) else (s, t) in
    run tr <- vget trs t;
    run h <- has_shift tr 1 (s - tr_offset tr);
    Ok (negb h).

(** the least [i<j] that does not commute with [j], else [j] (weyl.cpp:536-543) *)
Fixpoint first_star (n from : nat) (trs : list transducer) (upper : list nat) (j : nat) : res nat :=
  match n with
  | O => Ok j
  | S m => run c <- inner_commutes trs upper from j; if c : bool then first_star m (S from) trs upper j else Ok from
  end.

(** the loop on components, weyl.cpp:513-524 *)
Definition place_component (comp : component) (st : list nat * list nat) : res (list nat * list nat) :=
  let '(upper, out) := st in
  let size := length (c_position comp) in
  let last := c_offset comp + size - 1 in
  run upper <- upto size 0 (fun i upper => vput upper (c_offset comp + i) last) upper;
  run out <- upto size 0 (fun i out =>
    run p <- vget (c_position comp) i;
    vput out (if is_letter ["B"; "C"; "D"]%char (c_type comp) then last - i else c_offset comp + i) p) out;
  Ok (upper, out).
(** WeylGroup::WeylGroup, weyl.cpp:495-547; the components of the diagram are given *)
Definition each_comp {A S} (l : list A) (f : A -> S -> res S) (s : S) : res S :=
  fold_left (fun r c => run s <- r; f c s) l (Ok s).
Definition make_weyl (rank : nat) (comps : list component) : res weyl_group :=
  run (upper, out) <- each_comp comps place_component (repeat 0 rank, repeat 255 rank_max);
  run inn <- upto rank 0 (fun i inn => run o <- vget out i; vput inn o i) (repeat 255 rank_max);
  run trs <- each_comp comps (fun comp trs =>
    upto (length (c_position comp)) 0 (fun i trs =>
      run tr <- make_transducer (c_type comp) (c_offset comp) i; vput trs (c_offset comp + i) tr) trs)
    (repeat (mk_tr 0 0 [] []) rank);
  run ms <- make_row rank (fun j => first_star j 0 trs upper j);
  Ok (mk_weyl trs inn out ms upper).

Definition w_rank (W : weyl_group) : nat := length (w_min_star W).

(** A WeylElt (weyl.h:101-155) is the list of its pieces; only those below the rank of the
    group are ever used, so the list has this length. *)
Definition w_id (W : weyl_group) : list nat := repeat 0 (w_rank W).
(** weyl.cpp:555-560 *)
Definition inner_gen (W : weyl_group) (i : nat) : res (list nat) := vput (w_id W) i 1.
Definition generator (W : weyl_group) (i : nat) : res (list nat) := run j <- vget (w_in W) i; inner_gen W j.
(** weyl.cpp:563-566 *)
Definition output_local_gen (W : weyl_group) (i g : nat) : res nat :=
  run tr <- vget (w_transducer W) i; vget (w_out W) (g + tr_offset tr).
(** weyl.cpp:627-638; the loop runs over the transducers from [i] down *)
Fixpoint transduce (W : weyl_group) (w : list nat) (i s : nat) : res (list nat * Z) :=
  run wi <- vget w i;
  run tr <- vget (w_transducer W) i;
  run h <- has_shift tr wi s;
  if h : bool then
    run x <- tr_shift tr wi s;
    run w <- vput w i x;
    Ok (w, if x <? wi then (-1)%Z else 1%Z)
  else
    match i with
    | O => Fail Range
    | S k => run s <- tr_out tr wi s; transduce W w k s
    end.
(** weyl.cpp:640-643 *)
Definition inner_mult (W : weyl_group) (w : list nat) (s : nat) : res (list nat * Z) :=
  run start <- vget (w_upper W) s;
  run tr <- vget (w_transducer W) s;
  transduce W w start (s - tr_offset tr).
Definition mult_gen (W : weyl_group) (w : list nat) (s : nat) : res (list nat * Z) :=
  run s <- vget (w_in W) s; inner_mult W w s.
(** the array [stack] of letters, and its use from the last one to the first *)
Definition stack (tr : transducer) (x : nat) : res (list nat) :=
  run l <- letters tr x; if length l <=? max_piece_length then Ok (rev l) else Fail Range.
(** weyl.cpp:653-670 *)
Definition mult_by_piece (W : weyl_group) (w v : list nat) (i : nat) : res (list nat * Z) :=
  run x <- vget v i;
  run tr <- vget (w_transducer W) i;
  run start <- vget (w_upper W) i;
  run len <- tr_length tr x;
  run l <- stack tr x;
  each_comp l (fun s '(w, result) => run (w, c) <- transduce W w start s; Ok (w, (result + c)%Z)) (w, (- Z.of_nat len)%Z).
(** weyl.cpp:700-714 *)
Definition inner_left_mult (W : weyl_group) (w : list nat) (s : nat) : res (list nat * Z) :=
  run sw <- inner_gen W s;
  run t <- vget (w_min_star W) s;
  run (sw, l) <- upto (S s - t) t (fun i '(sw, l) => run (sw, c) <- mult_by_piece W sw w i; Ok (sw, (l + c)%Z)) (sw, 1%Z);
  run w <- upto (S s - t) t (fun i w => run x <- vget sw i; vput w i x) w;
  Ok (w, l).
Definition left_mult_gen (W : weyl_group) (s : nat) (w : list nat) : res (list nat * Z) :=
  run s <- vget (w_in W) s; inner_left_mult W w s.
(** weyl.cpp:721-725 *)
Definition mult (W : weyl_group) (w v : list nat) : res (list nat) :=
  upto (w_rank W) 0 (fun i w => run (w, _) <- mult_by_piece W w v i; Ok w) w.
(** weyl.cpp:733-737 *)
Definition mult_word (W : weyl_group) (w : list nat) (ww : list nat) : res (list nat) :=
  each_comp ww (fun s w => run (w, _) <- mult_gen W w s; Ok w) w.
Definition element (W : weyl_group) (ww : list nat) : res (list nat) := mult_word W (w_id W) ww.
(** weyl.h:316-322, letters from right to left *)
Definition left_mult_word (W : weyl_group) (ww w : list nat) : res (list nat) :=
  each_comp (rev ww) (fun s w => run (w, _) <- left_mult_gen W s w; Ok w) w.
(** weyl.cpp:740-743 *)
Definition left_mult (W : weyl_group) (w x : list nat) : res (list nat) := mult W x w.
(** weyl.h:362-363 *)
Definition conjugate (W : weyl_group) (w : list nat) (s : nat) : res (list nat) :=
  run (w, _) <- left_mult_gen W s w; run (w, _) <- mult_gen W w s; Ok w.
(** weyl.cpp:751-763 *)
Definition inverse (W : weyl_group) (w : list nat) : res (list nat) :=
  downto (w_rank W) (fun i wi =>
    run x <- vget w i; run tr <- vget (w_transducer W) i;
    run l <- letters tr x;
    each_comp l (fun s wi => run (wi, _) <- inner_mult W wi (s + tr_offset tr); Ok wi) wi) (w_id W).
(** weyl.cpp:765-791 *)
Definition longest (W : weyl_group) : res (list nat) :=
  upto (w_rank W) 0 (fun i w => run tr <- vget (w_transducer W) i; vput w i (tr_size tr - 1)) (w_id W).
Definition w_max_length (W : weyl_group) : res nat :=
  upto (w_rank W) 0 (fun i n => run tr <- vget (w_transducer W) i; run l <- tr_max_length tr; Ok (n + l)) 0.
Definition w_order (W : weyl_group) : res (list Z * bool) :=
  upto (w_rank W) 0 (fun i '(n, said) =>
    run tr <- vget (w_transducer W) i;
    run (n, said') <- size_mul_n rounds n (Z.of_nat (tr_size tr)); Ok (n, said || said')) (size_one, false).
(** weyl.h:386-387 *)
Definition commutes (W : weyl_group) (s t : nat) : res bool :=
  if s =? t then Ok true
  else run s <- vget (w_in W) s; run t <- vget (w_in W) t; inner_commutes (w_transducer W) (w_upper W) s t.

Definition same_elt (v w : list nat) : bool := if list_eq_dec Nat.eq_dec v w then true else false.
(** weyl.cpp:805-818; [None] is UndefGenerator *)
Definition Chevalley_dual (W : weyl_group) (s : nat) : res (option nat) :=
  run w0 <- longest W;
  run (w, _) <- mult_gen W w0 s;
  run w <- mult W w w0;
  (fix search (n t : nat) : res (option nat) :=
     match n with
     | O => Ok None
     | S n => run g <- generator W t; if same_elt w g then Ok (Some t) else search n (S t)
     end) (w_rank W) 0.
(** weyl.cpp:820-827 *)
Definition Chevalley_twist (W : weyl_group) : res (list (option nat)) := make_row (w_rank W) (Chevalley_dual W).

(** the set of elements found (std::set: increasing lists of pieces, without repetition), and
    whether the element is new; the queue holds the elements still to be treated *)
Fixpoint elt_lt (v w : list nat) : bool :=
  match v, w with
  | [], [] => false
  | [], _ => true
  | _, [] => false
  | a :: v, b :: w => if a <? b then true else if b <? a then false else elt_lt v w
  end.
Fixpoint set_insert (v : list nat) (l : list (list nat)) : list (list nat) * bool :=
  match l with
  | [] => ([v], true)
  | w :: r => if elt_lt v w then (v :: w :: r, true) else if elt_lt w v then let '(r, b) := set_insert v r in (w :: r, b) else (w :: r, false)
  end.
(** weyl.cpp:838-857 *)
Definition class_loop (W : weyl_group) (conj : list nat -> nat -> res (list nat)) (fuel : nat) (w : list nat) : res (list (list nat)) :=
  run (found, _) <- loop fuel (fun '(_, todo) => Ok (negb (length todo =? 0)))
    (fun '(found, todo) =>
       run v <- vget todo 0;
       run (_, found, todo) <- upto (w_rank W) 0 (fun s '(v, found, todo) =>
         run v <- conj v s;
         let '(found, isnew) := set_insert v found in
         Ok (v, found, if isnew : bool then todo ++ [v] else todo)) (v, found, tl todo);
       Ok (found, todo)) ([w], [w]);
  Ok found.
Definition conjugacy_class (W : weyl_group) (fuel : nat) (w : list nat) : res (list (list nat)) := class_loop W (conjugate W) fuel w.

(** weyl.cpp:867-889 *)
Fixpoint any_descent (W : weyl_group) (start : nat) (l : list nat) (w : list nat) : res (list nat * bool) :=
  match l with
  | [] => Ok (w, false)
  | s :: l => run (w, c) <- transduce W w start s; if (c <? 0)%Z then Ok (w, true) else any_descent W start l w
  end.
Fixpoint descent_from (W : weyl_group) (start : nat) (w : list nat) (n i : nat) (sw : list nat) : res bool :=
  match n with
  | O => Ok false
  | S n =>
      run x <- vget w i; run tr <- vget (w_transducer W) i;
      run l <- stack tr x;
      run (sw, b) <- any_descent W start l sw;
      if b : bool then Ok true else descent_from W start w n (S i) sw
  end.
Definition has_descent (W : weyl_group) (s : nat) (w : list nat) : res bool :=
  run s <- vget (w_in W) s;
  run sw <- inner_gen W s;
  run start <- vget (w_upper W) s;
  run t <- vget (w_min_star W) s;
  descent_from W start w (S s - t) t sw.
(** weyl.h:349-359 *)
Definition length_change (W : weyl_group) (w : list nat) (s : nat) : res Z := run (_, c) <- mult_gen W w s; Ok c.
Definition left_length_change (W : weyl_group) (s : nat) (w : list nat) : res Z := run b <- has_descent W s w; Ok (if b : bool then (-1)%Z else 1%Z).
(** weyl.cpp:919-926 *)
Definition leftDescent (W : weyl_group) (w : list nat) : res (option nat) :=
  (fix search (n i : nat) : res (option nat) :=
     match n with
     | O => Ok None
     | S n => run x <- vget w i; if 0 <? x then (run o <- vget (w_out W) i; Ok (Some o)) else search n (S i)
     end) (w_rank W) 0.
(** weyl.cpp:934-942 *)
Definition w_length (W : weyl_group) (w : list nat) : res nat :=
  upto (w_rank W) 0 (fun i l => run tr <- vget (w_transducer W) i; run x <- vget w i; run k <- tr_length tr x; Ok (l + k)) 0.
(** weyl.cpp:944-958: the vector [result] is filled from the end; [acc] is the part filled *)
Definition word (W : weyl_group) (w : list nat) : res (list nat) :=
  run k <- w_length W w;
  run acc <- downto (w_rank W) (fun i acc =>
    run x <- vget w i; run tr <- vget (w_transducer W) i;
    run l <- letters tr x;
    each_comp l (fun g acc => run o <- output_local_gen W i g;
       if length acc <? k then Ok (o :: acc) else Fail Range) acc) [];
  Ok (repeat 0 (k - length acc) ++ acc).
(** weyl.cpp:968-976: the value of the big_int *)
Definition to_big_int (W : weyl_group) (w : list nat) : res Z :=
  downto (w_rank W) (fun i u => run tr <- vget (w_transducer W) i; run x <- vget w i;
    Ok (u * Z.of_nat (tr_size tr) + Z.of_nat x)%Z) 0%Z.
(** weyl.cpp:984-992; shift_modulo divides and returns the remainder *)
Definition to_WeylElt (W : weyl_group) (u : Z) : res (list nat) :=
  run (w, _) <- upto (w_rank W) 0 (fun i '(w, u) => run tr <- vget (w_transducer W) i;
    let n := Z.of_nat (tr_size tr) in
    run w <- vput w i (Z.to_nat (u mod n)); Ok (w, (u / n)%Z)) (w_id W, u);
  Ok w.
(** weyl.cpp:1008-1031 *)
Definition inner_map (W : weyl_group) (f : list nat) : res (list nat) :=
  make_row (w_rank W) (fun i => run o <- vget (w_out W) i; run x <- vget f o; vget (w_in W) x).
Definition translation (W : weyl_group) (w f : list nat) : res (list nat) :=
  run g <- inner_map W f;
  upto (w_rank W) 0 (fun i result =>
    run x <- vget w i; run tr <- vget (w_transducer W) i;
    run l <- stack tr x;
    each_comp l (fun s result => run j <- vget g (s + tr_offset tr); run (result, _) <- inner_mult W result j; Ok result) result) (w_id W).
(** weyl.cpp:1034-1052 *)
Definition reverse_translation (W : weyl_group) (w f : list nat) : res (list nat) :=
  run g <- inner_map W f;
  downto (w_rank W) (fun i result =>
    run x <- vget w i; run tr <- vget (w_transducer W) i;
    run l <- letters tr x;
    each_comp l (fun s result => run j <- vget g (s + tr_offset tr); run (result, _) <- inner_mult W result j; Ok result) result) (w_id W).
