# Formal model of the Atlas utilities in Rocq

## What this is

`/repo/sources` (C++) is read as text. `/verif/rocq/theories` contains
hand-written Gallina transcriptions of selected functions and machine-checked
theorems about them. Each area has up to four files:

* `XModel.v`  – transcription; every definition cites file and lines in `/repo`;
* `XSpec.v`   – the independent specification (plain mathematics: `Z`, sets as
  predicates, reachability, ...), not using the model's helpers;
* `XProofs.v` – lemmas;
* `XProps.v`  – the property theorems, each followed by a concrete example that
  meets its hypotheses and by `Print Assumptions`.

## Trusted base

* the Coq 8.16.1 kernel (with `vm_compute`), nothing else switched on or off;
* axioms: those shown by `Print Assumptions` after each theorem. The intention
  is "Closed under the global context" everywhere. The standard library file
  `Coq.ssr.ssrunder`, loaded with ssreflect, declares parameters; no theorem
  depends on them. `MatDet.v` takes facts on determinants from mathcomp; the
  independent checker lists some components of sealed modules of mathcomp
  (`SetDef.finset`, `BigOp.bigop`, ...) because a sealed module hides the
  definition; they are definitions, not axioms, and `Print Assumptions` is
  empty for every theorem;
* the transcription from C++ to Gallina, done by hand. Modelling conventions:
  - unsigned machine words are `Z` with explicit `mod 2^32` / `mod 2^64` where
    the wrap-around matters; templates over a number type are modelled over `Z`
    (no overflow) when the comment at the definition says so;
  - `std::vector` is `list`; iterators become the suffix of the list they point
    to, or an index;
  - C++ exceptions, and undefined behaviour that we want to expose, are `None`
    or an explicit error constructor;
  - `assert` is off in the release build (`sources/Makefile`, `-DNDEBUG`), so
    asserted conditions are proved or stated as hypotheses, never assumed by
    the model;
  - loops are structural recursion where possible, otherwise fuel is used with
    an explicit out-of-fuel value, and sufficiency of the fuel is proved.

## Properties

A property that is *false* of the code as written gets a theorem with suffix
`_refuted` (a concrete witness evaluated by the kernel) and theorems for the
part that does hold. `MANIFEST.json` marks those as `partial`.

| ids | area | what is modelled | how |
|---|---|---|---|
| C01-C05, C07-C12, C14 | big_int | digit lists base 2^32, all arithmetic functions of bigint.cpp | value function `sval` into Z, normal form = shortest; induction on digit lists |
| C06 | big_int division | reduce_mod, shift_modulo | Knuth-D invariant on remainder/quotient split |
| C13,C15,C16 | gcd, power, big_rat | on top of the big_int model | Z.gcd, Q |
| C17-C20 | arithmetic.h/.cpp | word functions with explicit mod 2^64 | lia / Euclid induction |
| C21 | bits.cpp | loops on 64-bit words | N.testbit |
| C22-C26 | bitmap.cpp | list of 64-bit words + capacity | membership predicate per bit |
| C27 | bitset.cpp | one and two 32-bit chunks | N.testbit |
| C28-C30 | permutations | lists of indices | induction |
| C31-C33, C54, C55 | polynomials | coefficient lists | coefficient function nat -> Z |
| C34,C35 | hash table | pool + slot array, arbitrary hash function | representation invariant preserved by match/rehash |
| C36, C56 | graph.cpp | explicit-stack Tarjan; reversal; reduction by opposite edges | invariant of the traversal vs. reachability |
| C37,C38 | partition | orbit search, class functions | invariant vs. reachability |
| C39,C40 | poset | lists of down-set bitmaps (boolean lists; SetProofs.v relates them to the words of the bitmap model) | induction on number of elements |
| C41,C42 | preorder | rows + representative references | closure loop invariant |
| C43-C49, C60 | matreduc.h/.cpp | integer matrices; entry range `fits` is a parameter and every value computed in the entry type is checked against it; the variable `int d` of column_echelon is a parameter `as_int` | unimodular operations as invariants; determinants in `MatDet.v` (mathcomp's, transferred to functions nat -> nat -> Z); spans in `RedSpan.v` |
| C48,C50 | matrix inverse | back-substitution | induction |
| C57-C59 | matrix.h/.cpp | entries in one vector by rows; entry type with operations that may fail (`arith`); results in an error monad (`RunModel.v`) | each loop described by the entries it has set; `gives m P E`: the result satisfies P or the failure satisfies E |
| C51, C61 | size.cpp, weylsize.cpp | exponent vectors | products of powers; degrees of basic invariants |
| C52 | tally.h, tally_def.h, byte input/output of basic_io | counter vector with overflow map; streams as byte lists | representation of a function N -> N |
| C62-C66 | bitvector.h, bitvector.cpp | bit sets as binary numbers, vectors with their size, matrices by columns | combinations, spans, bases, reduced echelon form over the field with two elements |
| C67, C68 | subquotient.h, subquotient.cpp | subspaces as reduced bases with their leading positions | on top of the model of bitvector |
| C69 | mod2_system.h, mod2_system.cpp | equations as lists of unknowns | triangular families; `add` is refuted |
| C70-C76 | weyl.h, weyl.cpp (Transducer, WeylGroup) | transducer tables as built by the constructor, elements as arrays of pieces, inner and outer numbering | the tables are checked against local conditions by evaluation for all types up to rank 32 (`WeylCheck.v`); everything else is by proof: the Coxeter group by generators and relations, normal forms (distinguished by the reflection action), exchange condition and longest element (`WeylExchange.v`) |
| C77-C82 | weyl.h, weyl.cpp (TwistedWeylGroup, twisted involutions), ext_gen of lietype.h | a Twist by its entries below the rank, a TwistedInvolution by its WeylElt, involution words with complemented letters as negative numbers | roots and their signs from the Cartan matrix, the descent criterion, a potential (length and trace) that rises by at most 4 with each letter of an expression, double cosets for orbits of generators; a step of type three whose letter is not complemented is shown in `C81_ex` |
| C83-C85 | ratvec.h, ratvec.cpp | a rational vector by its numerators and denominator; signed overflow is an error, unsigned operations wrap around, big integers are exact | the entries are rational numbers of the standard library (QArith); a lemma per operation; uniqueness of the reduced form by the lemma of Gauss; `C83_add_wraps` shows a sum outside the stated range |
| C86-C87 | lattice.cpp | matrices as in C44-C49; the iterators of baseChange are lists | bases of the lattices from the unimodular matrices of the echelon form (kernel), the diagonal form (perp) and the adapted basis (saturation) |
| C88-C90 | lietype.h, lietype.cpp (not Smith_basis) | letters as an enumeration, a rank as a number with wrap-around where the code subtracts, layouts as records | `LieTypeSpec.v` gives the Dynkin diagrams and the permutations of the inner class letters; determinants by development along the end of the diagram |
| C91-C93 | dynkin.h, dynkin.cpp (not folded) | bit sets of at most 32 nodes, labelled edges as a list, components as records | components of a graph, traversal of a line, the shapes of all finite diagrams; a reason for every refusal; uniqueness by invariants |
| C94-C103 | rootdata.h and rootdata.cpp, class RootSystem (not invCmat and the functions using it, long_orthogonalize) | bitmaps as lists of booleans, byte vectors as lists with wrap-around at 8 bits, the sets per level as sorted lists, fuel for the loop over levels | `RootSpec.v` defines roots with coroots as images of the simple ones under simple reflections; finite type as in `LieTypeSpec.v` |
| C104-C116 | prerootdata.h/.cpp and rootdata.h/.cpp, class RootDatum | vectors and matrices as in C57-C59, the fields not used by the construction as functions of their own; the conversion in `Vector::dot` is a parameter `narrow` | `DatSpec.v`: pairing, reflections, actions of words, dominance; inverses, bases and saturation as in C45-C49 and C86; termination by counting positive coroots that are negative on the vector |
| C117-C121 | rootdata.cpp, free functions for root systems | root numbers and sets of roots as in C94-C103; the loop of `to_positive_system` takes fuel | sets characterised by pairings and chains; images of words as in C104; the bound on steps counts positive roots of the subsystem mapped to negative ones |
| C122-C123 | rootdata.cpp, Weyl_orbit and what it uses (not the versions that give Weyl group elements) | the templates for weights and coweights, and for simple and listed generators, as one function each with the roots and coroots as parameters; fuel for the layers | `OrbProps.v`: an orbit as a list without repetition of the images under words; the proofs use stabilisers of dominant vectors (`OrbMath.v`) |
| C124-C129 | rootdata.cpp, free functions for root data (not `twist`) | rational weights by numerator and denominator; std::set as a sorted list; orbits of generators as in lietype.h | `DfSpec.v`: automorphisms as matrices acting on weights, permutations of the simple roots, folded roots and coroots |
| C130-C133 | nothing new: the recognition of Cartan matrices (C92), subsystems (C105), integrality and folding (C127, C129) | `ClsTable.v` decides by `vm_compute` all ways to attach one node to a standard diagram of at most 31 nodes | the specifications above, with positive definiteness as in `LieTypeSpec.v` |
| C134-C137 | subsystem.h and subsystem.cpp (not involution_data, SubSystemWithGroup, codecs) | the records of words as parallel lists, Weyl group elements as words, RootNbr(-1) as 65535; fuel for the descent to a simple root | `SsProps.v`: the map to the parent as an isomorphism of systems of roots; words acting on the lattice as in C104; closed sets of roots as in C105 |
| C138-C142 | y_values.h and y_values.cpp (not y_entry and its hashing) | a torus element is its rational vector (RatVecModel.v); sums of long long are checked; the narrowing to int in is_central is explicit | `YvSpec.v`: elements as vectors of rationals modulo even integers, reduced form, values of weights, action of matrices |
| C143-C146 | tori.h and tori.cpp (not the constructor by duality except through dual()) | unsigned subtractions that would wrap around fail in the model; they are proved not to | `ToriSpec.v`: involutions, eigenlattices, the normal form (fixed, negated and exchanged basis vectors), images modulo 2 |
| C147-C148 | class InvolutionData of involutions.cpp (not build, which starts from a twisted involution; not class InvolutionTable) | none | `IvSpec.v`: the classes of roots for a permutation, simple members of a set of roots, permutations given by a map of vectors |
| C149-C156 | class InvolutionTable of involutions.cpp: the matrices, vectors and spaces of a record and its conjugate, representatives of weights and torus parts, locate; fiber_denom of tits.cpp (not the hash tables, lengths and orbits) | none | `UqSpec.v`: 1 minus an involution, classes modulo its image, factors, conjugates, torus parts up to equivalence |
| C157-C161 | tits.h, tits.cpp: classes TitsGroup, TitsElt, TitsCoset except for the constructors from an inner class and the gradings of roots that are not simple (not EnrichedTitsGroup) | none | `TgSpec.v`: the Tits group by generators and relations, inverses, conjugation by a base element; `TgSem.v`: the element a value stands for, imaginary generators, squares |
| C162-C165 | tits.h, tits.cpp: classes GlobalTitsElement and GlobalTitsGroup (not the fields alpha_v, half_rho_v and square_class_gen, nor the methods that take a subsystem or a root that is not simple); weyl.cpp:1114-1141, the actions by means of a PreRootDatum | conversions to int, 64-bit range checks | `GtSpec.v`: reflections of rational vectors, twisted involutions on them, vectors modulo even integers, strong involutions, types of generators, cross actions |
| C166 | tits.cpp:319-356 compute_square_classes, 840-847 compact_simples for a torus element; bitset.cpp:61-70 unslice | conversions to int, range checks | `QcSpec.v`: gradings of the simple roots fixed by the twist, modulo those given by fixed coweights |
| C167-C168 | matrix.cpp:288-295 on_basis; topology.cpp dual_component_group_basis (the basis of the radical is an argument, C115) | conversions to int, range checks, exceptions | `PiSpec.v`: involution on the coroots, weights whose values on the coroots are congruent to a fixed function |
| C169-C170 | rootdata.cpp:784-805 long_orthogonalize; gradings.cpp:50-77 max_orth | iteration over a set that changes, entries out of range, fuel for the loop that ends when nothing is left | `MoSpec.v`: strongly orthogonal sets, products of reflections, Cayley transforms of gradings, selection of roots |
| C171-C172 | gradings.h:52-122 Status; gradings.cpp:101-105 GradingCompare | the bits and chunks of BitSet (C27) | values of the roots; members of sets |
| C173-C174 | tits.cpp:661-672 TitsCoset::grading, 704-717 simple_imaginary_grading | the descents of the root system (RsfModel) and the cross actions of the coset (TgModel); imaginary is required of the simple root reached for the moved element, the assertion that the root is positive is not modelled | words in the Tits group, sum of the simple roots |
| C175 | tits.cpp:674-717, the argument in the comment before simple_imaginary_grading | the same model as C173-C174; complex is a change of the length by 2, imaginary is stated on the coefficients of the root | twisted involutions as words (TwistSpec), roots by coefficients |
| C176 | tits.cpp:256-275, GlobalTitsGroup::compact at a root number | the loop of C173 with the cross actions of C164; the number of roots is the fuel | values of roots at rational vectors (GtSpec), complex paths (TcSpec) |
| C177 | tits.cpp:144-153, GlobalTitsGroup::is_valid with a subsystem; subsystem.h:93 | the matrix starts as zero and every column is set; the subsystem is the object of C134-C136, its columns enter the theorems as a hypothesis; the method has no caller | squares and strong elements (GtSpec), pairing with rational vectors (YvSpec) |

## Not modelled

Everything outside `sources/utilities` unless listed above (from `structure`:
only weylsize.cpp, bitvector, subquotient, lattice, lietype, dynkin, weyl, prerootdata, rootdata, subsystem, y_values, tori, topology and part of involutions, tits and gradings; from rootdata not the functions named above; from weyl not the actions on lattices and root systems by means of a RootDatum), all input/output code except for the bytes of basic_io, memory allocation and its failure, and the performance of the code.
