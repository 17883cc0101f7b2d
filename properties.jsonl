{"id": "C01", "title": "big_int addition is exact", "statement": "For any two distinct big_int objects a, b, a+=b (and a+b, a+=(short int)) leaves in a the mathematical sum of the two integers, in the unique shortest representation; no carry is ever lost and the result never needs a redundant digit.", "quantifier": "all pairs of integers, all lengths", "why_tests_cant": "operands have unbounded length; the carry/sign-extension interaction has infinitely many length and digit-pattern combinations", "anchors": ["sources/utilities/bigint.cpp:big_int::operator+=, add_to, carry, shrink", "sources/utilities/bigint.h:operator+"]}
{"id": "C02", "title": "big_int subtraction is exact", "statement": "a-=b and a-b leave the exact mathematical difference in shortest form for all a, b.", "quantifier": "all pairs of integers, all lengths", "why_tests_cant": "unbounded operands", "anchors": ["sources/utilities/bigint.cpp:big_int::operator-=, sub_from, borrow"]}
{"id": "C03", "title": "reverse subtraction is exact", "statement": "b.subtract_from(a), which is also what a-=std::move(b) and a-(temporary b) run, leaves exactly a-b in b.", "quantifier": "all pairs of integers", "why_tests_cant": "the error cases need a particular sign/length/digit pattern over at least three digits", "anchors": ["sources/utilities/bigint.cpp:big_int::subtract_from, sub_from", "sources/utilities/bigint.h:operator-"]}
{"id": "C04", "title": "negation and complement are exact", "statement": "negate() maps x to -x and complement() maps x to -x-1, both in shortest form, for every x including powers of two of either sign.", "quantifier": "all integers", "why_tests_cant": "boundary cases occur at every word length", "anchors": ["sources/utilities/bigint.cpp:compl_neg, negate, complement"]}
{"id": "C05", "title": "multiplication is exact", "statement": "a*b is the exact product in shortest form; a*=d for a one-word d is the exact product.", "quantifier": "all integers", "why_tests_cant": "unbounded operands; carries of a schoolbook product", "anchors": ["sources/utilities/bigint.cpp:operator*, mult_add, operator*="]}
{"id": "C06", "title": "Euclidean division", "statement": "For d!=0, a.reduce_mod(d) returns q and leaves r with a=q*d+r and r=0 or r has the sign of d with |r|<|d| (floor division); d=0 throws and changes nothing. operator/, operator% agree.", "quantifier": "all a, all nonzero d", "why_tests_cant": "Knuth's algorithm D correction steps occur with probability about 2^-32 on random inputs", "anchors": ["sources/utilities/bigint.cpp:reduce_mod, shift_modulo, operator/, operator%"]}
{"id": "C07", "title": "comparison is the order of the integers", "statement": "operator<, operator==, is_zero, is_negative, is_odd on values in shortest form decide the corresponding relations on the represented integers.", "quantifier": "all pairs of integers", "why_tests_cant": "unbounded operands", "anchors": ["sources/utilities/bigint.cpp:operator<, operator==", "sources/utilities/bigint.h"]}
{"id": "C08", "title": "machine integer conversions", "statement": "Construction from int/unsigned/64 bit words gives that integer in shortest form; int_val, uint_val, long_val, ulong_val return the represented integer, and throw exactly when it does not fit.", "quantifier": "all integers, all machine words", "why_tests_cant": "2^64 inputs; range boundaries for every type", "anchors": ["sources/utilities/bigint.cpp:from_signed, from_unsigned, int_val, uint_val, long_val, ulong_val", "sources/utilities/bigint.h"]}
{"id": "C09", "title": "bitwise operations act on infinite two's complement", "statement": "&=, |=, ^=, bitwise_subtract and bitwise_subset agree, bit by bit for every bit index, with the infinite two's complement expansions of the operands, whatever their lengths and signs; results are in shortest form.", "quantifier": "all pairs of integers, all bit indices", "why_tests_cant": "unbounded operands and bit positions", "anchors": ["sources/utilities/bigint.cpp:operator&=, operator|=, operator^=, bitwise_subtract, bitwise_subset"]}
{"id": "C10", "title": "bit queries", "statement": "bit_length(x), index_of_set_bit(n) return the number of significant bits and the position of the n-th set bit (or -1 if absent).", "quantifier": "all integers", "why_tests_cant": "unbounded operands", "anchors": ["sources/utilities/bigint.cpp:bit_length, index_of_set_bit"]}
{"id": "C11", "title": "decimal output/input round trip", "statement": "Printing a big_int in decimal and reading the digits back gives the same integer, with no leading zeros.", "quantifier": "all integers", "why_tests_cant": "unbounded", "anchors": ["sources/utilities/bigint.cpp:operator<<, big_int(const char*,...)"]}
{"id": "C12", "title": "string input in any base", "statement": "Constructing a big_int from a digit string in base 2..36 gives the integer denoted by the string.", "quantifier": "all strings of valid digits, all bases", "why_tests_cant": "unbounded strings", "anchors": ["sources/utilities/bigint.h:char_val", "sources/utilities/bigint.cpp:big_int(const char*,...)"]}
{"id": "C13", "title": "gcd and lcm of big integers", "statement": "gcd returns the non-negative greatest common divisor and lcm the non-negative least common multiple for all arguments (of either sign).", "quantifier": "all pairs", "why_tests_cant": "unbounded; termination of the Euclidean loop", "anchors": ["sources/utilities/bigint.cpp:gcd, lcm"]}
{"id": "C14", "title": "compound assignment tolerates aliasing", "statement": "a+=a doubles a and a-=a gives zero, like for built-in integers.", "quantifier": "all integers", "why_tests_cant": "the failing values are exactly those whose top digit overflows", "anchors": ["sources/utilities/bigint.cpp:operator+=, add_to"]}
{"id": "C15", "title": "big_int powers", "statement": "x.power(e) is x^e for all e>=0.", "quantifier": "all x, all e", "why_tests_cant": "unbounded", "anchors": ["sources/utilities/bigint.cpp:power"]}
{"id": "C16", "title": "rational numbers stay canonical", "statement": "Every big_rat operation returns the exact rational result in lowest terms with positive denominator.", "quantifier": "all rationals", "why_tests_cant": "unbounded", "anchors": ["sources/utilities/bigint.h:big_rat", "sources/utilities/bigint.cpp:big_rat"]}
{"id": "C17", "title": "floor division helpers", "statement": "divide(a,b) and remainder(a,b) satisfy a=divide*b+remainder, 0<=remainder<b for every a and b>0, without overflow for any representable arguments.", "quantifier": "all 64-bit a, all b>0", "why_tests_cant": "2^127 argument pairs", "anchors": ["sources/utilities/arithmetic.h:divide, remainder"]}
{"id": "C18", "title": "word gcd and lcm with Bezout data", "statement": "unsigned_gcd(a,b) for b!=0 is the gcd; lcm(a,b,g,m) returns the lcm (when it fits in a word), sets g to the gcd and m to a multiple of a congruent to g modulo b.", "quantifier": "all words a, b with b!=0", "why_tests_cant": "2^128 argument pairs", "anchors": ["sources/utilities/arithmetic.cpp:unsigned_gcd, lcm", "sources/utilities/arithmetic.h:gcd"]}
{"id": "C19", "title": "fixed-width rational arithmetic is exact when it fits", "statement": "For Rational<long long> p, q whose exact result and intermediate products fit, p+q, p-q, p*q, p/q equal the exact rational result, and comparisons agree with the order of the rationals.", "quantifier": "all pairs of fractions within range", "why_tests_cant": "2^256 argument combinations", "anchors": ["sources/utilities/arithmetic.cpp:Rational<I>::operator+, -, *, /", "sources/utilities/arithmetic.h:Rational"]}
{"id": "C20", "title": "modular helpers", "statement": "modAdd, modProd (for moduli up to 2^32) and power return the residue resp. power modulo 2^64.", "quantifier": "all words in range", "why_tests_cant": "2^192 inputs", "anchors": ["sources/utilities/arithmetic.h:modAdd", "sources/utilities/arithmetic.cpp:modProd, power"]}
{"id": "C21", "title": "bit counting primitives", "statement": "bitCount, firstBit, lastBit on a 64-bit word return the number of set bits, the index of the lowest set bit (64 if none) and one more than the index of the highest set bit (0 if none).", "quantifier": "all 2^64 words", "why_tests_cant": "2^64 inputs and a table/mask based implementation", "anchors": ["sources/utilities/bits.cpp:bitCount, firstBit, lastBit", "sources/utilities/constants.cpp"]}
{"id": "C22", "title": "BitMap is a finite set", "statement": "After any sequence of insert, remove, flip, set_to, &=, |=, ^=, andnot, take_complement, fill, reset, fill/clear ranges, set_capacity and extend_capacity, isMember describes exactly the set given by the corresponding set operations on numbers below the capacity, and bits outside the capacity remain clear.", "quantifier": "all capacities, all sequences of operations", "why_tests_cant": "unbounded sequences and capacities; word boundary cases", "anchors": ["sources/utilities/bitmap.h:BitMap", "sources/utilities/bitmap.cpp"]}
{"id": "C23", "title": "BitMap size, rank and select", "statement": "size() is the number of members, position(n) the number of members below n, n_th(i) the i-th smallest member (capacity if none), front() the smallest member, empty()/full() decide emptiness/fullness, back_up finds the largest smaller member; contains/disjoint decide inclusion/disjointness.", "quantifier": "all bitmaps, all indices", "why_tests_cant": "unbounded capacities", "anchors": ["sources/utilities/bitmap.cpp:size, position, n_th, front, empty, full, back_up, contains, disjoint"]}
{"id": "C24", "title": "BitMap iteration", "statement": "Iterating from begin() visits every member exactly once in increasing order and stops; removing the current or visited members during the traversal does not disturb it.", "quantifier": "all bitmaps, all removal patterns", "why_tests_cant": "unbounded", "anchors": ["sources/utilities/bitmap.cpp:BitMap::begin, BitMap::iterator::operator++"]}
{"id": "C25", "title": "BitMap shifts translate the set", "statement": "b<<=d adds d to every member, dropping those that reach the capacity, b>>=d subtracts d, dropping those below zero, for every d.", "quantifier": "all bitmaps and shifts", "why_tests_cant": "word/bit boundary combinations", "anchors": ["sources/utilities/bitmap.cpp:operator<<=, operator>>="]}
{"id": "C26", "title": "BitMap bit-field access", "statement": "setRange(n,r,a) makes bits n..n+r-1 equal to the low bits of a and leaves others unchanged; range(n,r) reads them back, under the documented alignment.", "quantifier": "all bitmaps, fields within a word", "why_tests_cant": "unbounded capacities", "anchors": ["sources/utilities/bitmap.cpp:setRange, range"]}
{"id": "C27", "title": "BitSet is a finite set of small numbers", "statement": "All BitSet<n> operations (set, reset, flip, test, count, firstBit, lastBit, position, shifts, &=, |=, ^=, andnot, fill, complement, truncate, scalarProduct, contains, slice, unslice), for one- and two-chunk sets, implement the operations on subsets of {0..n-1}.", "quantifier": "all sets, all arguments", "why_tests_cant": "2^64 sets; two different implementations must agree", "anchors": ["sources/utilities/bitset.h:BitSetBase<1>, BitSetBase<2>", "sources/utilities/bitset.cpp"]}
{"id": "C28", "title": "permutations form a group", "statement": "identity, inverse and composition of permutations of any size satisfy the group laws and act as functions; is_negative is the sign homomorphism.", "quantifier": "all sizes, all permutations", "why_tests_cant": "n! permutations for every n", "anchors": ["sources/utilities/permutations.h", "sources/utilities/permutations_def.h", "sources/utilities/permutations.cpp:Permutation::is_negative, inverse"]}
{"id": "C29", "title": "permuting data", "statement": "permute(pi,v) in place puts the old v[i] at position pi[i]; pull_back gives v[pi[i]] at i; they are inverse to one another, and renumbering maps each value.", "quantifier": "all permutations, all vectors", "why_tests_cant": "n! permutations", "anchors": ["sources/utilities/permutations_def.h:permute, pull_back, renumber"]}
{"id": "C30", "title": "standardization is a stable counting sort", "statement": "standardization(a) returns the permutation sending each index to its position in the stable sort of a, for every word a over [0,bound[; the stops vector delimits equal values.", "quantifier": "all words", "why_tests_cant": "unbounded", "anchors": ["sources/utilities/permutations_def.h:standardization"]}
{"id": "C31", "title": "polynomial arithmetic", "statement": "Polynomial +=, -=, subtract_from, *, *=c and shifts compute the exact polynomial (coefficient-wise specification) and keep the leading coefficient nonzero.", "quantifier": "all polynomials", "why_tests_cant": "unbounded degrees", "anchors": ["sources/utilities/polynomials_def.h"]}
{"id": "C32", "title": "upward division by 1+q^k", "statement": "factor_by_1_plus_q(d) replaces P by Q and returns r with P=(1+q)Q+r q^d; factor_by_1_plus_q_to_the(k,d) replaces P by the Q of degree at most d-k with P-(1+q^k)Q of valuation greater than d-k; up_remainder(c,d) is r for 1+cq.", "quantifier": "all polynomials of degree at most d", "why_tests_cant": "unbounded degrees", "anchors": ["sources/utilities/polynomials_def.h:factor_by_1_plus_q, factor_by_1_plus_q_to_the, up_remainder"]}
{"id": "C33", "title": "safe polynomial arithmetic never wraps", "statement": "safeAdd throws NumericOverflow exactly when some exact coefficient of the result exceeds the coefficient type, and otherwise gives the exact sum, also when the argument aliases the object; safeSubtract under its precondition gives the exact difference.", "quantifier": "all polynomials over every unsigned coefficient width", "why_tests_cant": "overflow patterns at any coefficient", "anchors": ["sources/utilities/polynomials_def.h:safe_add, safe_multiply, Safe_Poly::safeAdd, safeSubtract"]}
{"id": "C34", "title": "hash table gives stable dense numbering", "statement": "match(x) returns the same number for equal entries and different numbers for different entries; numbers are assigned 0,1,2,... in order of first occurrence; find returns that number, or empty exactly when x was never matched, after any history of matches and rehashes.", "quantifier": "all histories of match/find, all hash functions", "why_tests_cant": "arbitrary histories and collisions", "anchors": ["sources/utilities/hashtable_def.h:match, find, rehash, reconstruct"]}
{"id": "C35", "title": "hash table detects index overflow", "statement": "When the number type is exhausted match throws instead of returning the reserved value empty; every entry stored can be found again.", "quantifier": "all index widths and histories", "why_tests_cant": "would need 2^32 insertions", "anchors": ["sources/utilities/hashtable_def.h:match"]}
{"id": "C36", "title": "strong components", "statement": "OrientedGraph::cells assigns the same class to two vertices iff each is reachable from the other, numbers classes so that edges never lead to a higher class, and (if asked) the induced graph has exactly the edges between distinct classes.", "quantifier": "all finite directed graphs", "why_tests_cant": "all graphs of all sizes; the algorithm is an explicit-stack Tarjan traversal", "anchors": ["sources/utilities/graph.cpp:OrientedGraph::cells, add_links"]}
{"id": "C37", "title": "orbit partitions", "statement": "partition::orbits for generators acting by permutations assigns equal classes exactly to points in the same orbit; classes are numbered by smallest element, which is the representative.", "quantifier": "all finite permutation actions", "why_tests_cant": "all actions", "anchors": ["sources/utilities/partition_def.h:orbits", "sources/utilities/partition.cpp"]}
{"id": "C38", "title": "partitions from class functions", "statement": "Partition(f) groups i, j iff f(i)=f(j), numbers classes by first occurrence, classRep is the first member; class_sizes/classSize count members; PartitionIterator visits each class once, members increasing.", "quantifier": "all functions f", "why_tests_cant": "unbounded", "anchors": ["sources/utilities/partition.cpp"]}
{"id": "C39", "title": "poset is the transitive closure", "statement": "Poset built from a Hasse-type list or links satisfying the ordering precondition has lesseq(i,j) iff there is a chain of links from i to j; it is a partial order; the dual reverses it; n_comparable counts the pairs and equals n_comparable_from_Hasse.", "quantifier": "all finite acyclic link lists", "why_tests_cant": "all posets", "anchors": ["sources/utilities/poset.h", "sources/utilities/poset.cpp"]}
{"id": "C40", "title": "maxima, minima and Hasse diagram", "statement": "maxima(b)/minima(b) are the maximal/minimal members of b; the Hasse diagram has an edge exactly for covering pairs.", "quantifier": "all posets and subsets", "why_tests_cant": "all posets", "anchors": ["sources/utilities/poset.cpp:maxima, minima, hasseDiagram"]}
{"id": "C41", "title": "preorder closure", "statement": "Preorder::closure terminates and afterwards relates(x,y) holds iff y is reachable from x by a nonempty path; cliques lists the nontrivial equivalence classes.", "quantifier": "all finite relations", "why_tests_cant": "in-place union/closure loop over mutable bitmaps", "anchors": ["sources/utilities/preorder.cpp:closure, cliques", "sources/utilities/preorder.h"]}
{"id": "C42", "title": "preorder reversal", "statement": "reversed() relates (y,x) exactly when the original relates (x,y), before and after closure.", "quantifier": "all finite relations", "why_tests_cant": "only fails in presence of cycles", "anchors": ["sources/utilities/preorder.cpp:reversed"]}
{"id": "C43", "title": "gcd of a vector with column operations", "statement": "matreduc::gcd(v,&ops,flip,dest) returns the non-negative gcd of the entries and a unimodular ops with v*ops = gcd at position dest, 0 elsewhere; flip is toggled iff det(ops)=-1.", "quantifier": "all integer vectors", "why_tests_cant": "unbounded", "anchors": ["sources/utilities/matreduc.h:gcd"]}
{"id": "C44", "title": "column echelon form", "statement": "column_echelon produces M*col in echelon shape with the same column span, unimodular col, pivots positive, and the pivot set has as many elements as remaining columns.", "quantifier": "all integer matrices", "why_tests_cant": "unbounded", "anchors": ["sources/utilities/matreduc.h:column_echelon"]}
{"id": "C45", "title": "diagonalisation", "statement": "diagonalise(M,row,col) returns diagonal entries with row*M*col diagonal, row and col invertible over the integers, all entries positive except maybe the first.", "quantifier": "all integer matrices", "why_tests_cant": "unbounded", "anchors": ["sources/utilities/matreduc.cpp:diagonalise"]}
{"id": "C46", "title": "diagonalisation uses determinant one", "statement": "The matrices row and col set by diagonalise have determinant exactly 1, as documented.", "quantifier": "all integer matrices", "why_tests_cant": "sign bookkeeping over several pivots", "anchors": ["sources/utilities/matreduc.cpp:diagonalise", "sources/utilities/matreduc.h"]}
{"id": "C47", "title": "integral linear systems", "statement": "has_solution(A,b) holds iff A*x=b has an integer solution, and then find_solution returns one; otherwise find_solution throws.", "quantifier": "all A, b", "why_tests_cant": "unbounded", "anchors": ["sources/utilities/matreduc.cpp:has_solution, find_solution"]}
{"id": "C48", "title": "matrix inversion", "statement": "inverse(A,d) for square A yields d=0 iff A is singular, otherwise d>0 and A*result=d*Id; inverse(A) succeeds iff A is invertible over the integers.", "quantifier": "all square matrices", "why_tests_cant": "unbounded", "anchors": ["sources/utilities/matrix.cpp:inverse", "sources/utilities/matreduc.h:echelon_solve"]}
{"id": "C49", "title": "adapted and Smith bases", "statement": "adapted_basis/Smith_basis return a unimodular B and positive d_i such that the column span of M is spanned by d_i*B_i; for Smith_basis d_i divides d_{i+1}.", "quantifier": "all integer matrices", "why_tests_cant": "unbounded", "anchors": ["sources/utilities/matreduc.cpp:adapted_basis, Smith_basis"]}
{"id": "C50", "title": "unitriangular inversion", "statement": "inverse_lower_triangular / inverse_upper_triangular return the two-sided inverse of a unitriangular matrix and throw if it is not square or lacks unit diagonal.", "quantifier": "all matrices over a ring", "why_tests_cant": "unbounded", "anchors": ["sources/utilities/matrix.cpp:inverse_upper_triangular, inverse_lower_triangular"]}
{"id": "C51", "title": "Weyl group sizes as factored integers", "statement": "SizeType(n) factors n over the supported primes (or reports overflow), multiplication and division act on the represented number, toUlong returns it modulo 2^64, factorial(n) represents n!.", "quantifier": "all n in range", "why_tests_cant": "2^64 inputs", "anchors": ["sources/utilities/size.cpp"]}
{"id": "C52", "title": "tally vectors count", "statement": "After any history of tally calls multiplicity(i) equals the number of times i was tallied (with multiplicities), whatever the counter width and capacity; size() is one more than the largest index; advance/lower enumerate the indices with nonzero count; write_to followed by reading restores the table.", "quantifier": "all histories", "why_tests_cant": "counter saturation and overflow-map transitions need long histories", "anchors": ["sources/utilities/tally_def.h"]}
{"id": "C53", "title": "Split_integer is the ring Z[s]/(s^2-1)", "statement": "The Split_integer built from (a,b) represents a+b*s: e() and s() return a and b, and +, -, unary -, *, times_s, times_1_s, times_1_plus_s compute sum, difference, negative, and products in Z[s]/(s^2-1) in that representation.", "quantifier": "all integers a, b, c, d (no int overflow)", "why_tests_cant": "infinitely many coefficients; the stored evaluations at s=1 and s=-1 hide coefficient errors", "anchors": ["sources/utilities/arithmetic.h:Split_integer"]}
{"id": "C54", "title": "comparison of polynomials", "statement": "compare is a strict total order (by degree, then by the highest differing coefficient), operator< is the lexicographic order from the constant term, ==, and the entry comparison used by the hash tables decide equality of polynomials, multi_term tells whether there are two nonzero terms.", "quantifier": "all polynomials", "why_tests_cant": "order axioms quantify over triples of polynomials of unbounded degree", "anchors": ["sources/utilities/polynomials_def.h:compare, multi_term", "sources/utilities/polynomials.h:operator==, operator<, PolEntry::operator!="]}
{"id": "C55", "title": "overflow leaves a valid polynomial", "statement": "When safeAdd throws NumericOverflow the object still respects the class invariant (nonzero leading coefficient).", "quantifier": "all polynomials and widths", "why_tests_cant": "depends on which of unboundedly many coefficients overflows", "anchors": ["sources/utilities/polynomials_def.h:Safe_Poly::safeAdd"]}
{"id": "C56", "title": "graph reversal and reduction by opposite edges", "statement": "reverseEdges has an edge y->x for each edge x->y, with multiplicity and in increasing order; reverseNumbering renames x to size-1-x; to_unoriented_components, for increasing edge lists, returns the components of the relation of opposite edges, numbered by smallest element, and replaces the graph by the induced one.", "quantifier": "all finite directed graphs (with increasing edge lists for the last)", "why_tests_cant": "all graphs; union-find structure with partial path compression", "anchors": ["sources/utilities/graph.cpp:reverseEdges, reverseNumbering, to_unoriented_components"]}
{"id": "C57", "title": "structural matrix operations", "statement": "Rows, columns, blocks, transposes, setting, swapping, adding and erasing of rows and columns, and the permuting functions pull_back_columns, conjugate and inv_conjugate produce matrices of the documented dimensions with the documented entries, and never access the entry vector out of range.", "quantifier": "all matrices of all dimensions over all entry types", "why_tests_cant": "index computations for all shapes; the in-place permutation of columns follows arbitrary cycles; 32-bit size computations fail only for huge matrices", "anchors": ["sources/utilities/matrix.cpp", "sources/utilities/matrix.h", "sources/utilities/permutations.cpp:pull_back_columns, conjugate, inv_conjugate"]}
{"id": "C58", "title": "matrix and vector arithmetic", "statement": "Sums, differences, scaling, products, row and column operations and row_apply/column_apply compute the ring expressions they stand for entry by entry, for exact arithmetic always and for machine integers unless an operation overflows.", "quantifier": "all entry types, dimensions and values", "why_tests_cant": "all dimensions and entries, any ring", "anchors": ["sources/utilities/matrix.cpp:operator*, rowOperation, columnOperation, rowMultiply, columnMultiply", "sources/utilities/matrix.h:operator*, right_prod, row_apply, column_apply, dot"]}
{"id": "C59", "title": "division of vectors by a number", "statement": "operator/= divides exactly or throws when the divisor is 0 or does not divide all entries; divide gives Euclidean quotients and operator%= the least non-negative residues for positive and negative divisors; divisible decides divisibility of all entries.", "quantifier": "all integer vectors and divisors, all integer types", "why_tests_cant": "signs and extreme values; unbounded", "anchors": ["sources/utilities/matrix.cpp:operator/=, divide, operator%=, divisible"]}
{"id": "C60", "title": "clearing an entry by a two-column or two-row operation", "statement": "column_clear(M,i,j,k) with M(i,k)>0 makes M(i,j) zero and M(i,k) the gcd of both, multiplies M on the right by a matrix whose determinant has the sign reported by the result, and leaves all other columns alone; row_clear likewise on the left.", "quantifier": "all integer matrices and positions", "why_tests_cant": "number of Euclidean steps and swaps is unbounded; sign bookkeeping", "anchors": ["sources/utilities/matreduc.cpp:column_clear, row_clear"]}
{"id": "C61", "title": "orders of Weyl groups", "statement": "weylSize of a Lie type is the product over its simple factors of the product of the degrees of the basic invariants of the factor (torus factors count 1), for ranks up to 32, and its toUlong is that number modulo 2^64.", "quantifier": "all Lie types of total rank at most 32", "why_tests_cant": "number of Lie types of rank up to 32 is huge and the orders exceed 64 bits", "anchors": ["sources/structure/weylsize.cpp", "sources/utilities/size.cpp"]}
{"id": "C62", "title": "vectors and matrices modulo 2", "statement": "The operations of BitVector and BitMatrix (sum, product with a set of positions, scalar product, entries, appending a bit, slice and unslice, reduction of integers modulo 2, conversion to integers, rows and columns, matrix times vector, vector times matrix, sum, product, transpose, combinations of vectors) compute the entries prescribed by linear algebra over the field with two elements.", "quantifier": "all sizes up to the capacity and all entries", "why_tests_cant": "all capacities and sizes; unused bits of a bit set", "anchors": ["sources/structure/bitvector.h", "sources/structure/bitvector.cpp"]}
{"id": "C63", "title": "Gauss_Jordan gives the canonical basis", "statement": "Gauss_Jordan replaces a list of vectors by the reduced echelon basis of the space they span, ordered by leading positions, and its first result is the set of these positions; the result depends only on the space spanned.", "quantifier": "all lists of vectors of a size within the capacity", "why_tests_cant": "number of lists and spaces is exponential in the size", "anchors": ["sources/structure/bitvector.cpp:Gauss_Jordan, normalSpanAdd"]}
{"id": "C64", "title": "systems of equations modulo 2", "statement": "combination_exists and solvable find a solution if there is one and otherwise report that there is none.", "quantifier": "all systems within the capacity", "why_tests_cant": "non-existence of solutions quantifies over all vectors", "anchors": ["sources/structure/bitvector.cpp:combination_exists, solvable", "sources/structure/bitvector.h:make_equation"]}
{"id": "C65", "title": "kernel and image of a matrix modulo 2", "statement": "BitMatrix::kernel gives a basis of the kernel and BitMatrix::image a basis of the column space.", "quantifier": "all matrices within the capacity", "why_tests_cant": "exponentially many matrices; completeness quantifies over all vectors", "anchors": ["sources/structure/bitvector.cpp:kernel, image, spanAdd"]}
{"id": "C66", "title": "section of a matrix modulo 2", "statement": "BitMatrix::section gives a matrix B with ABA = A; it is a left inverse of A if the columns are independent, and a right inverse if they span the whole space.", "quantifier": "all matrices within the capacity", "why_tests_cant": "exponentially many matrices", "anchors": ["sources/structure/bitvector.cpp:section"]}
{"id": "C67", "title": "subspaces modulo 2", "statement": "A Subspace made from any list of vectors or from the columns of a matrix is the canonical description of the space they span: equal spaces have equal descriptions; representative, contains, toBasis, fromBasis, basis_perp and apply compute the class modulo the space, membership, coordinates, the vector with given coordinates, a basis of the orthogonal complement and the image.", "quantifier": "all spaces of dimension within the capacity", "why_tests_cant": "exponentially many spaces; equality of spaces quantifies over all vectors", "anchors": ["sources/structure/subquotient.h", "sources/structure/subquotient.cpp"]}
{"id": "C68", "title": "subquotients modulo 2", "statement": "For W contained in V, the Subquotient describes V/W: size, basis of representatives, toBasis and fromBasis are inverse to each other, additive, and toBasis depends only on the class; subquotientMap gives the matrix of the map induced on the quotients.", "quantifier": "all pairs of spaces W in V within the capacity, and all linear maps respecting them", "why_tests_cant": "exponentially many pairs of spaces and maps", "anchors": ["sources/structure/subquotient.h", "sources/structure/subquotient.cpp:subquotientMap"]}
{"id": "C69", "title": "incremental linear systems modulo 2", "statement": "Mod2_System: a_solution, reduce and solution_basis give a solution, an equivalent reduced system and a basis of the homogeneous solutions; add keeps a description of the equations added and reports whether the system is consistent.", "quantifier": "all systems", "why_tests_cant": "exponentially many systems; completeness quantifies over all vectors", "anchors": ["sources/utilities/mod2_system.cpp"]}
{"id": "C70", "title": "Weyl group elements solve the word problem", "statement": "For every Cartan matrix that is a union of simple types A-G in any numbering of the generators, the constructor of WeylGroup succeeds, every word gives an element, and two words give the same element (the same array of pieces) if and only if they are equal in the Coxeter group given by generators and relations; equivalently, if and only if they act in the same way on all weights.", "quantifier": "all products of simple types of total rank at most 32, all numberings, all words", "why_tests_cant": "unboundedly many words in groups of up to 33! elements; equality in a group given by relations quantifies over all derivations", "anchors": ["sources/structure/weyl.cpp:Transducer", "sources/structure/weyl.cpp:WeylGroup", "sources/structure/weyl.cpp:mult", "sources/structure/weyl.h"]}
{"id": "C71", "title": "products, inverses and conjugates in Weyl groups", "statement": "mult (by a generator, a word, an element), left_mult, conjugate and inverse compute the corresponding products of group elements.", "quantifier": "all groups as in C70, all elements", "why_tests_cant": "the groups have up to 10^36 elements and left multiplication uses only part of the pieces", "anchors": ["sources/structure/weyl.cpp:mult", "sources/structure/weyl.cpp:inner_left_mult", "sources/structure/weyl.cpp:mult_by_piece", "sources/structure/weyl.cpp:inverse"]}
{"id": "C72", "title": "length, reduced words and descents", "statement": "word gives a word of minimal length for the element, length is this minimum, the values returned by the products and by length_change are the changes of length, has_descent tells if left multiplication shortens, and leftDescent gives a left descent for every element but the identity.", "quantifier": "all groups as in C70, all elements", "why_tests_cant": "minimality quantifies over all words for the element", "anchors": ["sources/structure/weyl.cpp:length", "sources/structure/weyl.cpp:word", "sources/structure/weyl.cpp:has_descent", "sources/structure/weyl.cpp:leftDescent", "sources/structure/weyl.h"]}
{"id": "C73", "title": "the longest element and the Chevalley involution", "statement": "longest gives the unique element of maximal length, max_length its length; it is an involution, l(w w0) = l(w0) - l(w), and Chevalley_dual / Chevalley_twist give the permutation of the generators by conjugation with it, an involutive automorphism of the group.", "quantifier": "all groups as in C70", "why_tests_cant": "quantifies over all elements of the group", "anchors": ["sources/structure/weyl.cpp:longest", "sources/structure/weyl.cpp:max_length", "sources/structure/weyl.cpp:Chevalley_dual", "sources/structure/weyl.cpp:Chevalley_twist"]}
{"id": "C74", "title": "order and numbering of Weyl group elements", "statement": "order is the product of the degrees for the components, computed without overflow of exponents, and to_big_int / to_WeylElt are mutually inverse bijections between the elements and the numbers below the order.", "quantifier": "all groups as in C70, all elements, all numbers", "why_tests_cant": "up to 10^36 elements", "anchors": ["sources/structure/weyl.cpp:order", "sources/structure/weyl.cpp:to_big_int", "sources/structure/weyl.cpp:to_WeylElt"]}
{"id": "C75", "title": "commuting generators and translation", "statement": "commutes decides if two generators commute in the group; translation applies a map of generators to the reduced word of an element, and for an automorphism of the Coxeter diagram it and reverse_translation compute the automorphism and the anti-automorphism on any word.", "quantifier": "all groups as in C70, all elements, all maps of generators", "why_tests_cant": "quantifies over all elements, maps and words", "anchors": ["sources/structure/weyl.h:commutes", "sources/structure/weyl.cpp:translation", "sources/structure/weyl.cpp:reverse_translation"]}
{"id": "C76", "title": "conjugacy classes", "statement": "conjugacy_class gives the increasing list, without repetition, of exactly the conjugates of an element, although the inner loop conjugates one element successively by all generators instead of each time the element treated; it ends after treating at most as many elements as the group has.", "quantifier": "all groups as in C70, all elements", "why_tests_cant": "completeness of the search quantifies over all conjugating elements", "anchors": ["sources/structure/weyl.cpp:conjugacy_class"]}
{"id": "C77", "title": "descents and the signs of roots", "statement": "has_descent(s,w) is true exactly if w (acting from the right, letter by letter) sends the simple root s to a root with coefficients <= 0; otherwise all coefficients are >= 0. Every root obtained from a simple root by a word has one of the two signs and not both, and words of the same element act in the same way on roots.", "quantifier": "all groups as in C70, all elements, all generators", "why_tests_cant": "relates a table of integers to the signs of all roots, for every element of every group up to rank 32", "anchors": ["sources/structure/weyl.cpp:has_descent"]}
{"id": "C78", "title": "twists, dual twists, twisted conjugation", "statement": "twisted applies the diagram automorphism to any word of the element. dual_twist composes the twist with conjugation by the longest element and is again an involutive automorphism of the Cartan matrix; dual_twisted is the corresponding map on elements, and u is a twisted involution for the twist exactly if u.w0 is one for the dual twist. twistedConjugate (by a generator, by a word, by the inverse of a word, by an element) computes x u delta(x)^-1 with the exact change of length, and keeps twisted involutions.", "quantifier": "all groups as in C70, all involutive diagram automorphisms, all elements and words", "why_tests_cant": "quantifies over all elements, words and automorphisms", "anchors": ["sources/structure/weyl.h:twistedConjugate", "sources/structure/weyl.h:inverseTwistedConjugate", "sources/structure/weyl.cpp:dual_twist", "sources/structure/weyl.cpp:dual_twisted", "sources/structure/weyl.cpp:twistedConjugate"]}
{"id": "C79", "title": "the test of twisted commutation", "statement": "for a twisted involution u, hasTwistedCommutation(s,u) decides s u delta(s) = u, although it only compares a length change with a descent; s u is a twisted involution just in this case, and otherwise s u delta(s) differs in length from u by exactly 2, in the direction given by s.", "quantifier": "all groups as in C70, all involutive diagram automorphisms, all twisted involutions, all generators", "why_tests_cant": "the test is correct only because of the exchange condition in every Weyl group", "anchors": ["sources/structure/weyl.cpp:hasTwistedCommutation"]}
{"id": "C80", "title": "expressions for twisted involutions", "statement": "involution_expr gives an expression for the element by left products (letter s) and twisted conjugations (letter ~s) all of whose partial results are twisted involutions; its number of letters is involutionLength, which satisfies 4 l = 2 length(u) + trace(delta) - trace(u delta), and no expression of this kind is shorter. canonical_involution_expr gives, among the shortest expressions, the one that is lexicographically first.", "quantifier": "all groups as in C70, all involutive diagram automorphisms, all twisted involutions, all other expressions", "why_tests_cant": "minimality and being first quantify over all expressions", "anchors": ["sources/structure/weyl.cpp:involution_expr", "sources/structure/weyl.cpp:canonical_involution_expr", "sources/structure/weyl.cpp:involutionLength"]}
{"id": "C81", "title": "orbits of generators and expressions for elements fixed by the twist", "statement": "twist_orbits lists each orbit of generators once, by increasing first generator, with type one, two (commuting) or three (product of order 3). For a twisted involution fixed by the twist, extended_involution_expr ends, and each of its letters is the first orbit that lowers the element; the step reaches a twisted involution fixed by the twist, that is the shortest element of the double coset by the group of the orbit. A letter is complemented exactly if the orbit has type one or two and the length decreases by 2 respectively 4; for type three it is never complemented.", "quantifier": "all groups as in C70, all involutive diagram automorphisms, all twisted involutions fixed by the twist", "why_tests_cant": "the case analysis of the code (descents checked on one generator only) is right only by a theorem about double cosets", "anchors": ["sources/structure/weyl.cpp:twist_orbits", "sources/structure/weyl.cpp:extended_involution_expr"]}
{"id": "C82", "title": "twisted conjugacy classes", "statement": "TwistedWeylGroup::twistedConjugacyClass gives the increasing list, without repetition, of exactly the elements x u delta(x)^-1, and ends after treating at most as many elements as the group has.", "quantifier": "all groups as in C70, all involutive diagram automorphisms, all elements", "why_tests_cant": "completeness of the search quantifies over all conjugating elements", "anchors": ["sources/structure/weyl.cpp:twistedConjugacyClass"]}
{"id": "C83", "title": "Rational vectors: normal form and arithmetic", "statement": "Normalising a rational vector gives the vector with the same entries and the least common denominator, which is unique; sums, differences, negation, products and quotients with integers and rational numbers, and reduction modulo an integer have the values of rational arithmetic, reduction giving representatives between 0 and the absolute value of the modulus. Signed overflow happens only in the named cases, and the unsigned arithmetic of sums is exact if the numerators over the common denominator are representable.", "quantifier": "all rational vectors with denominator below 2^63, all sizes, all integers and machine rationals within the stated ranges", "why_tests_cant": "the arithmetic mixes signed and unsigned 64-bit operations; wrong results arise only for particular large values or signs", "anchors": ["sources/utilities/ratvec.cpp:63-192", "sources/utilities/ratvec.h:39-104"]}
{"id": "C84", "title": "Rational vectors: comparison", "statement": "Operator== holds exactly if the sizes agree and the rational entries agree; operator< is comparison by size and then lexicographic comparison of the entries; this is a strict total order compatible with equality, independent of the denominators used. isZero holds exactly for zero vectors.", "quantifier": "all pairs of rational vectors with denominator below 2^63", "why_tests_cant": "tests compare only few vectors; transitivity concerns all triples", "anchors": ["sources/utilities/ratvec.cpp:31-61", "sources/utilities/ratvec.h:78-81"]}
{"id": "C85", "title": "Rational vectors: integer vectors, scalar products, matrices", "statement": "Adding and subtracting integer vectors, scalar products with integer vectors (integral and rational), integral differences of two vectors, products with matrices on either side, and symmetrisation (1+M)/2 have the values of rational linear algebra; integer_diff leaves its arguments in reduced form with equal denominators. Overflow happens only when the absolute values do not add up within 64 bits or a result entry does not fit.", "quantifier": "all rational vectors and integer matrices of matching sizes", "why_tests_cant": "the integer difference relies on equality of two denominators after normalisation, a number-theoretic fact", "anchors": ["sources/utilities/ratvec.h:119-191", "sources/utilities/ratvec.cpp:195-207", "sources/utilities/ratvec.h:225-240"]}
{"id": "C86", "title": "Lattices: kernels, eigenspaces, orthogonals, saturation", "statement": "kernel returns a matrix whose columns form a basis of the lattice of integer vectors sent to 0; eigen_lattice one whose columns form a basis of the vectors x with Mx = lambda x; perp a basis of the lattice of row vectors orthogonal to all columns; row_saturate a matrix whose rows form a basis of the saturation of the row lattice (vectors of which a nonzero multiple is in it), with the same kernel. The only failure is arithmetic overflow.", "quantifier": "all integer matrices of all sizes, all integers lambda", "why_tests_cant": "being a basis of the whole lattice, rather than of a sublattice of finite index, depends on the divisibility of all entries; it is not visible on small examples", "anchors": ["sources/structure/lattice.cpp:112-156"]}
{"id": "C87", "title": "Lattices: change of basis", "statement": "baseChange expresses vectors by their integer coordinates with respect to a basis of a sublattice of full rank; an exception is thrown only if the basis is singular, its denominator does not fit in an int, or some vector is not in the sublattice. inverseBaseChange gives the combinations with the given coordinates.", "quantifier": "all lists of n vectors of size n as basis, all lists of vectors of size n", "why_tests_cant": "the integrality test depends on the exact denominator of the inverse matrix", "anchors": ["sources/structure/lattice.cpp:74-106"]}
{"id": "C88", "title": "Lie types: Cartan matrices", "statement": "Every Cartan entry of a Lie type, and the matrices built from them, are those of the block diagonal matrix of the Dynkin diagrams of the factors (torus factors have zero blocks, and are left out of the true Cartan matrix; entries out of bounds are 0). The dual type has the transposed matrix, and is an involution on types.", "quantifier": "all Lie types with valid letters and ranks below 2^32, all indices", "why_tests_cant": "the entries are selected by tests on distances and by unsigned subtractions that depend on the rank; tests look at single types of small rank", "anchors": ["sources/structure/lietype.cpp:119-234", "sources/structure/lietype.cpp:316-341"]}
{"id": "C89", "title": "Lie types: determinants of Cartan matrices", "statement": "Cartan_determinant is the determinant of the Cartan matrix without torus factors, modulo 2^32; it is exact for a semisimple rank up to 31. For 32 factors A1, allowed by RANK_MAX, it is 0 while the determinant is 2^32. For a torus factor alone the value is 1, not the determinant of its matrix.", "quantifier": "all Lie types with valid letters and ranks", "why_tests_cant": "the formulas hold for all ranks; the failure needs rank 32", "anchors": ["sources/structure/lietype.cpp:179-190", "sources/structure/lietype.cpp:218-224"]}
{"id": "C90", "title": "Inner classes: involutions and duals", "statement": "The matrix of a layout permutes the nodes (in the numbering of the layout) as said by the inner class letters, with a sign for split torus factors; it is an involution and preserves the Cartan matrix. simple_involution gives the matrices of simple types. The dual letters describe the involution followed by minus the longest element (without complex letters), and the dual layout describes the transposed Cartan matrix. For the letters f and g it does not.", "quantifier": "all layouts with valid types and letters and any numbering of the nodes", "why_tests_cant": "holds for combinations of types, letters and numberings of any size", "anchors": ["sources/structure/lietype.cpp:348-455", "sources/structure/lietype.cpp:480-606", "sources/structure/lietype.cpp:624-659"]}
{"id": "C91", "title": "Dynkin diagrams: the type and numbering found are right", "statement": "When Lie_type accepts a matrix, the type it returns is valid and semisimple, and renumbering the indices by the permutation it returns turns the matrix into the Cartan matrix of the type. (The check of this in the source is compiled in only without NDEBUG.)", "quantifier": "all square integer matrices with at most 32 rows", "why_tests_cant": "the traversal depends on the shape and numbering of each component; no finite number of tests covers all numberings", "anchors": ["sources/structure/dynkin.cpp:28-220", "sources/structure/dynkin.cpp:278-337"]}
{"id": "C92", "title": "Dynkin diagrams: exactly the matrices of finite type are recognised", "statement": "Lie_type succeeds for every matrix that is the Cartan matrix of a semisimple type in some numbering, and throws Cartan_error for every other square matrix. The type is unique up to the order of the factors, B2 = C2, F4 = f4 and G2 = g2.", "quantifier": "all square integer matrices with at most 32 rows", "why_tests_cant": "refusal of every matrix not of finite type ranges over infinitely many shapes of diagrams and entries", "anchors": ["sources/structure/dynkin.cpp:28-220", "sources/structure/dynkin.cpp:301-337"]}
{"id": "C93", "title": "Dynkin diagrams: stored data and renumbering", "statement": "The diagram gives back the matrix entries and the edge multiplicities; the components partition the nodes into sets closed under edges, listed by their positions in the order of their offsets; permute gives the diagram of the renumbered matrix and does not fail.", "quantifier": "all square integer matrices of finite type with at most 32 rows, all permutations", "why_tests_cant": "holds for all diagrams and permutations", "anchors": ["sources/structure/dynkin.h:66-104", "sources/structure/dynkin.cpp:57-90", "sources/structure/dynkin.cpp:267-296", "sources/structure/dynkin.cpp:339-347"]}
{"id": "C94", "title": "Root systems: construction", "statement": "For every Cartan matrix of finite type of rank up to 32 the RootSystem constructor succeeds; its numbers correspond one to one to the roots (images of simple roots under the Weyl group), each with its own coroot. Positive roots have the upper half of the numbers beginning with the simple roots, and opposite roots have complementary numbers. No coefficient leaves the range of a signed byte.", "quantifier": "all matrices of finite type (any product of types, any numbering) of rank up to 32, both choices of preferred order", "why_tests_cant": "the root systems of all products of types and all numberings of their nodes are infinitely many in shape (up to rank 32 astronomically many); completeness of the list of roots is not observable from a run", "anchors": ["sources/structure/rootdata.cpp:118-348", "sources/structure/rootdata.h:157-185"]}
{"id": "C95", "title": "Root systems: order of the roots", "statement": "Positive roots are numbered by increasing height, those of equal height by comparing coefficients from the last on; coroots replace roots when prefer_coroots is set. level and colevel are the heights.", "quantifier": "all matrices of finite type of rank up to 32", "why_tests_cant": "the order comes from sets of vectors per level that are moved between levels during the construction", "anchors": ["sources/structure/rootdata.cpp:118-323", "sources/structure/rootdata.cpp:378-398"]}
{"id": "C96", "title": "Root systems: reflections and pairings", "statement": "The permutation tables give the number of the reflected root and coroot, for simple and arbitrary roots; words act from the left and the right; bracket is the pairing of root and coroot; is_orthogonal tells when it is 0; Cartan_matrix of a list of roots has these pairings as entries.", "quantifier": "all root systems of finite type of rank up to 32, all numbers", "why_tests_cant": "the tables are filled by conjugating from simple reflections; a wrong entry for one pair of roots would need that pair to be tested", "anchors": ["sources/structure/rootdata.cpp:252-300", "sources/structure/rootdata.cpp:523-561", "sources/structure/rootdata.h:300-337"]}
{"id": "C97", "title": "Root systems: sums of roots and alcove walls", "statement": "sum_is_root and sum_is_coroot, which read the ladder bottom tables, decide whether the sum of two roots (coroots) is one. The fundamental alcove walls are the simple roots and the negative roots whose coroot is a bottom for every simple coroot.", "quantifier": "all root systems of finite type of rank up to 32, all numbers", "why_tests_cant": "the bottom sets are computed by conjugation and complement and depend on every pair of roots", "anchors": ["sources/structure/rootdata.cpp:252-323", "sources/structure/rootdata.cpp:467-481", "sources/structure/rootdata.h:282-285", "sources/structure/rootdata.h:367-370"]}
{"id": "C98", "title": "Root systems: descents and dominant roots", "statement": "descent_set and ascent_set of a root contain the simple reflections with positive, respectively negative, pairing; is_descent and is_ascent, which compare numbers, agree with this for all roots; high_roots gives exactly the dominant positive roots, from the highest number down (thus also dominant short roots).", "quantifier": "all root systems of finite type of rank up to 32", "why_tests_cant": "is_descent compares numbers, whose order is by coroots or by roots; agreement is a fact about the order", "anchors": ["sources/structure/rootdata.h:255-325", "sources/structure/rootdata.cpp:808-816"]}
{"id": "C99", "title": "Root systems: duality", "statement": "The dual constructor gives, with all tables, the root system constructed from the transposed matrix with the opposite preference; numbers keep their meaning with roots and coroots interchanged.", "quantifier": "all root systems of finite type of rank up to 32", "why_tests_cant": "equality of all tables for all systems", "anchors": ["sources/structure/rootdata.cpp:339-348", "sources/structure/rootdata.cpp:100-116"]}
{"id": "C100", "title": "Root systems: extension of automorphisms", "statement": "extend_to_roots, given numbers of images of the simple roots with the same Cartan matrix, gives the permutation of all roots by the linear map with these images; root_permutation does so for diagram automorphisms.", "quantifier": "all root systems of finite type of rank up to 32, all images with matching pairings", "why_tests_cant": "the images are computed by following first descents; correctness depends on the choice of descents", "anchors": ["sources/structure/rootdata.cpp:563-599"]}
{"id": "C101", "title": "Root systems: reflection words", "statement": "reflection_word gives a palindrome in the simple reflections that acts as the reflection in the root.", "quantifier": "all root systems of finite type of rank up to 32, all numbers", "why_tests_cant": "the word depends on the descents along the way down to a simple root", "anchors": ["sources/structure/rootdata.cpp:601-617", "sources/structure/rootdata.cpp:1465-1469"]}
{"id": "C102", "title": "Root systems: looking up vectors", "statement": "lookup_root and lookup_coroot should give the number of the vector; they give the number of its opposite (the conditional is the wrong way round), and the number of roots for vectors that are not roots. Accordingly root_add and coroot_add give the opposite of the sum.", "quantifier": "all root systems of finite type of rank up to 32, all byte vectors", "why_tests_cant": "the only caller in the library closes a set symmetric under negation, where the error is invisible", "anchors": ["sources/structure/rootdata.cpp:717-772"]}
{"id": "C103", "title": "Root systems: simple roots of subsystems", "statement": "For a set of roots closed under its own reflections, simpleBasis gives in increasing order the positive members that are not a sum of two positive members; all positive members are sums of these, and their mutual pairings are not positive. pos_simples gives the same list from the positive members.", "quantifier": "all root systems of finite type of rank up to 32, all subsystems", "why_tests_cant": "the algorithm removes candidates by comparing numbers of reflected roots; its correctness depends on the order of the numbers", "anchors": ["sources/structure/rootdata.cpp:619-681"]}
{"id": "C104", "title": "Root data: the constructor", "statement": "The Cartan matrix of a PreRootDatum has the pairings of its simple roots and coroots as entries. The RootDatum constructed from it has the root system of that matrix, its roots and coroots are the combinations of the simple ones with the coefficients of the root system, every root pairs to 2 with its coroot, and twice rho is the sum of the positive roots and pairs to 2 with every simple coroot (and dually).", "quantifier": "all ranks, all finite types with at most 32 simple roots, all entries (failure only by overflow)", "why_tests_cant": "the roots depend on the whole construction of the root system and on the embedding of the root lattice", "anchors": ["sources/structure/prerootdata.cpp:102-112", "sources/structure/rootdata.cpp:824-848"]}
{"id": "C105", "title": "Root data: reflections", "statement": "Reflection of a weight or coweight by any root, with an offset, subtracts the root (coroot) multiplied by the pairing plus the offset; left and right multiplication of a matrix by a reflection, and root_reflection, are products with the matrix of the reflection.", "quantifier": "all root data, all roots, all vectors and matrices", "why_tests_cant": "loops over coordinates with partial sums", "anchors": ["sources/structure/rootdata.h:578-623", "sources/structure/rootdata.cpp:1030-1096", "sources/structure/prerootdata.cpp:151-185"]}
{"id": "C106", "title": "Root data: actions of Weyl words", "statement": "act, act_inverse and dual_act apply the simple reflections of the word in the right order; act_inverse undoes act; dual_act is the adjoint of act; the shifted actions are the linear action after a shift of origin; action_matrix is the matrix of act.", "quantifier": "all root data, words, vectors and shifts", "why_tests_cant": "order of letters and sides of the action for words of any length", "anchors": ["sources/structure/rootdata.h:665-750", "sources/structure/rootdata.cpp:1270-1276"]}
{"id": "C107", "title": "Root data: dominant vectors of orbits", "statement": "factor_dominant ends, with the only dominant vector of the orbit and a shortest word taking it to the vector given; the same for coweights, and for to_dominant and make_dominant. For vectors of 64-bit numbers the code tests the sign of the pairing after conversion to 32 bits, and then the property fails.", "quantifier": "all root data and vectors", "why_tests_cant": "termination and minimality of the word need the theory of positive roots; the failure needs pairings of at least 2^31", "anchors": ["sources/structure/rootdata.cpp:1114-1249", "sources/structure/rootdata.h:634-663", "sources/utilities/matrix.h:123-130"]}
{"id": "C109", "title": "Root data: words for reflections and matrices", "statement": "word_of_inverse_matrix gives a word for the inverse of the Weyl group element whose matrix is given, not longer than any word for it; reflection_word gives a shortest word for the reflection in any root; words that agree on 2 rho act in the same way.", "quantifier": "all root data, roots, and matrices of Weyl group elements", "why_tests_cant": "needs that 2 rho is regular with trivial stabiliser", "anchors": ["sources/structure/rootdata.cpp:1098-1113"]}
{"id": "C108", "title": "Root data: vectors dominant for a subsystem", "statement": "factor_dominant and factor_codominant with the list of simple roots of a subsystem end with a vector dominant for it and a word in its reflections that gives the argument back. make_dominant and make_codominant with such a list do the same (refuted: they ignore the list).", "quantifier": "all root data, all sets of roots closed under their reflections, all vectors (failure only by overflow)", "why_tests_cant": "termination needs the positive members of the subsystem counted; the overload that drops its argument compiles and works for the full system", "anchors": ["sources/structure/rootdata.cpp:1114-1249", "sources/structure/rootdata.h:634-663"]}
{"id": "C110", "title": "Root data: dual datum, reading back, subsystems", "statement": "The dual root datum, made by interchanging fields, is the one constructed from the dual description; the description read back from a root datum is the one it was made from; sub_predatum has the listed roots and coroots as columns.", "quantifier": "all root data of finite type with at most 32 simple roots; all lists of root numbers", "why_tests_cant": "the numbering of roots in the dual depends on the order used in the construction", "anchors": ["sources/structure/rootdata.cpp:879-890", "sources/structure/rootdata.cpp:1284-1292", "sources/structure/rootdata.cpp:987-1001"]}
{"id": "C111", "title": "Root data: the datum of a Lie type", "statement": "The PreRootDatum of a Lie type has its rank and semisimple rank, its Cartan matrix is that of the semisimple part, and the coroots span a saturated lattice (it is simply connected).", "quantifier": "all valid Lie types of total rank at most 32, with torus factors in any positions", "why_tests_cant": "positions of torus factors shift rows and columns separately", "anchors": ["sources/structure/prerootdata.cpp:47-65"]}
{"id": "C112", "title": "Root data: derived and coderived datum", "statement": "The derived datum has semisimple rank, the weights are restricted by a surjective projection and the coroots are included by its transpose; the coderived datum has the weights in a saturated sublattice that contains the roots. Both keep the Cartan matrix.", "quantifier": "all root data of finite type (failure only by overflow)", "why_tests_cant": "the adapted basis and its inverse are computed by elimination", "anchors": ["sources/structure/prerootdata.cpp:67-97"]}
{"id": "C113", "title": "Root data: quotients", "statement": "quotient by a central subgroup, given a sublattice of full rank that contains the roots, expresses the roots in its basis and restricts the coroots, with the same Cartan matrix; it throws when the matrix is not square of the right size, is singular, or a root is not in the lattice.", "quantifier": "all root data and matrices (failure otherwise only by overflow)", "why_tests_cant": "divisibility is decided column by column with a common denominator", "anchors": ["sources/structure/prerootdata.cpp:121-149"]}
{"id": "C114", "title": "Root data: fundamental weights", "statement": "The numerators of the fundamental weights and coweights are combinations of simple roots and coroots and pair to the common least denominator with one simple coroot (root) and to 0 with the others. The inverse Cartan matrix fits in the type short for every allowed rank (refuted).", "quantifier": "all root data of finite type", "why_tests_cant": "the common denominator of a product of types is a least common multiple", "anchors": ["sources/structure/rootdata.cpp:153-156", "sources/structure/rootdata.cpp:849-857"]}
{"id": "C115", "title": "Root data: radicals and status flags", "statement": "The radical and coradical bases are bases of the coweights that vanish on all roots and the weights that vanish on all coroots; the flags for adjoint and simply connected tell whether the lattices of roots and coroots are saturated.", "quantifier": "all root data of finite type (failure only by overflow)", "why_tests_cant": "saturation is a statement about all multiples of all vectors", "anchors": ["sources/structure/rootdata.cpp:859-864", "sources/structure/rootdata.cpp:1307-1330"]}
{"id": "C116", "title": "Root data: permutation of the roots by an automorphism", "statement": "If a matrix sends the simple roots to roots with the same pairings, rootPermutation gives the permutation of all roots under it.", "quantifier": "all root data, all such matrices (failure only by overflow)", "why_tests_cant": "the permutation is extended from simple roots by reflections", "anchors": ["sources/structure/rootdata.cpp:1062-1075"]}
{"id": "C117", "title": "Root systems: orthogonal roots and components", "statement": "makeOrthogonal gives exactly the roots of the subset orthogonal to all roots of the given set. components gives the classes of the set under chains of non-orthogonal roots: non-empty, disjoint, covering.", "quantifier": "all root systems of finite type of rank at most 32, all sets of roots", "why_tests_cant": "sets are shrunk and united while they are iterated over", "anchors": ["sources/structure/rootdata.cpp:1366-1384", "sources/structure/rootdata.cpp:1502-1540"]}
{"id": "C118", "title": "Root systems: conjugation to a simple root, long roots", "statement": "conjugate_to_simple gives a simple root and a word that maps it to the positive one of the root and its opposite. is_long_root and is_long_coroot hold exactly when the root has value at least 2 on a coroot not proportional to its own, respectively the coroot on such a root.", "quantifier": "all root systems of finite type of rank at most 32, all roots", "why_tests_cant": "termination depends on levels going down; only 12 positive roots can be tried by hand", "anchors": ["sources/structure/rootdata.cpp:1473-1488", "sources/structure/rootdata.cpp:1741-1760"]}
{"id": "C119", "title": "Root systems: positive roots made negative by a word", "statement": "pos_to_neg gives exactly the positive roots whose image under the word is not positive, reduced word or not.", "quantifier": "all root systems of finite type of rank at most 32, all words", "why_tests_cant": "the set is flipped and permuted once for each letter", "anchors": ["sources/structure/rootdata.cpp:1490-1500"]}
{"id": "C120", "title": "Root systems: positive system of a subsystem", "statement": "For a list of roots with the pairings of a Cartan matrix of finite type, to_positive_system ends after at most as many steps as there are positive roots of that type, in a list of positive roots obtained from the given one by the recorded reflections; the recorded positions give the same list by a word on the simple system of the subsystem.", "quantifier": "all root systems of rank at most 32, all lists with Cartan matrix of finite type", "why_tests_cant": "termination is by a count over positive roots of the subsystem", "anchors": ["sources/structure/rootdata.cpp:1404-1423"]}
{"id": "C121", "title": "Root systems: automorphism as a word times a diagram automorphism", "statement": "If the given roots have the pairings of the simple roots, wrt_distinguished leaves a permutation of the simple roots that keeps the Cartan matrix, and its word maps these to the given roots.", "quantifier": "all root systems of finite type of rank at most 32, all such lists", "why_tests_cant": "the word is recorded from roots that are reflected at the same time", "anchors": ["sources/structure/rootdata.cpp:1425-1464"]}
{"id": "C122", "title": "Orbits of weights and coweights for the Weyl group", "statement": "Weyl_orbit, for a weight and for a coweight, gives exactly the images of the vector under the Weyl group, each once.", "quantifier": "all root data of rank at most 32 with Cartan matrix of finite type, all vectors, dominant or not", "why_tests_cant": "the orbit is built from cosets of parabolic subgroups, with tests for repetition in one layer only; termination is by counting positive coroots", "anchors": ["sources/structure/rootdata.cpp:1778-1833", "sources/structure/rootdata.cpp:1958-1990", "sources/structure/rootdata.cpp:2104-2134"]}
{"id": "C123", "title": "Orbits for a group generated by given reflections", "statement": "Weyl_orbit with a list of positive roots that are the simple roots of a root system of finite type gives the orbit, for the group generated by their reflections, of the vector dominant for the whole Weyl group; so of the vector given if it is dominant. For other vectors it is in general not the orbit of the vector given.", "quantifier": "all root data of rank at most 32 with Cartan matrix of finite type, all such lists, all vectors", "why_tests_cant": "the vectors on the walls come from a kernel computed by elimination; the layers are as for C122", "anchors": ["sources/structure/rootdata.cpp:1843-1900", "sources/structure/rootdata.cpp:1991-2022", "sources/structure/rootdata.cpp:2136-2174"]}
{"id": "C124", "title": "Distinguished involutions and dual based involutions", "statement": "toDistinguished multiplies an automorphism of the root datum by a Weyl group element and gives a matrix that permutes the simple roots (and the coroots in the same way); an involution gives an involution. dualBasedInvolution gives the negative transpose of the product with the longest element, which is an involution permuting the simple coroots.", "quantifier": "all root data of rank at most 32 with Cartan matrix of finite type, all automorphisms", "why_tests_cant": "the argument uses that a Weyl group element making the image of rho dominant straightens any automorphism", "anchors": ["sources/structure/rootdata.cpp:1341-1363", "sources/structure/rootdata.cpp:1384-1402"]}
{"id": "C125", "title": "Half sums of positive roots and sums of roots", "statement": "rho and rho_check are half the sums, in lowest terms; rho_minus_w_rho and rho_check_minus_rho_check_w give rho - w(rho) and its dual in integers; root_sum and coroot_sum add the members of a set.", "quantifier": "all root data of rank at most 32 with Cartan matrix of finite type, all words and sets", "why_tests_cant": "the integer sums follow the inversions of a word of any length, which need not be reduced", "anchors": ["sources/structure/rootdata.cpp:1335-1339", "sources/structure/rootdata.cpp:1704-1738"]}
{"id": "C126", "title": "Products of reflections", "statement": "refl_prod is the composition of the reflections for the roots in a set; for orthogonal roots it subtracts the multiples of all these roots.", "quantifier": "all root data of rank at most 32 with Cartan matrix of finite type, all sets of roots", "why_tests_cant": "matrix products over any set of roots", "anchors": ["sources/structure/rootdata.cpp:1544-1556"]}
{"id": "C127", "title": "Integrality of rational weights", "statement": "integrality_poscoroots gives the positive coroots with integral value; integrality_simples the simple roots of the system of these, as the roots not sums of two others, which generate it with pairings <= 0; integrality_predatum has them as simple roots and coroots; singular_generators and is_dominant_ratweight test the simple coroots.", "quantifier": "all root data of rank at most 32 with Cartan matrix of finite type, all rational weights", "why_tests_cant": "the sets of integral roots are closed under reflection for every weight, which the extraction of simple roots needs", "anchors": ["sources/structure/rootdata.cpp:1558-1581", "sources/structure/rootdata.cpp:1685-1702"]}
{"id": "C128", "title": "Points of integrality on a line", "statement": "integrality_points lists, increasing and in lowest terms, exactly the fractions t with 0 < t <= 1 for which t times the weight has a nonzero integral value on some coroot.", "quantifier": "all root data of rank at most 32 with Cartan matrix of finite type, all rational weights", "why_tests_cant": "the list is made from a set of products with fractions that coincide for different coroots; comparison of fractions may overflow", "anchors": ["sources/structure/rootdata.cpp:1583-1602"]}
{"id": "C129", "title": "Orbits of simple roots and folding", "statement": "fold_orbits lists the orbits of a permutation of the simple roots with their types, each generator once for an involution; the version for a list of roots does the same or throws when an image is not in the list. The folded roots and coroots of cofold have pairings with the properties of a Cartan matrix, the roots are fixed by the involution, and on fixed weights their reflections are the longest elements of the orbits.", "quantifier": "all root data of rank at most 32 with Cartan matrix of finite type, all involutions permuting the simple roots", "why_tests_cant": "the two cases of orbits with two elements, and the pairing -1 in the second case, follow from the finiteness of the Weyl group", "anchors": ["sources/structure/rootdata.cpp:1608-1683", "sources/structure/lietype.h:153-170"]}
{"id": "C130", "title": "Positive definite Cartan matrices are those recognised", "statement": "An integer matrix of size at most 32 with diagonal 2, nonpositive other entries and symmetric zeros is given a Lie type exactly if it is positive definite (all its components are of types A to G); every other matrix makes the function throw.", "quantifier": "all square matrices of size at most 32", "why_tests_cant": "this is the classification of Cartan matrices of finite type: it is about all matrices, and tests can only use matrices known to be of a type", "anchors": ["sources/structure/dynkin.cpp:28-220", "sources/structure/dynkin.cpp:301-337"]}
{"id": "C131", "title": "Root data of subsystems", "statement": "For a set of roots closed under its reflections the simple basis has at most as many members as the rank; their pairings form a Cartan matrix of finite type, so a type is found; the predatum of the basis is accepted by the constructor, and the roots and coroots of the resulting datum are exactly those of the members of the set.", "quantifier": "all root data of rank at most 32 with Cartan matrix of finite type, all sets closed under reflections", "why_tests_cant": "that every such set has a basis with a Cartan matrix of finite type, and that it generates exactly the set, needs the classification and a proof for all root systems", "anchors": ["sources/structure/rootdata.cpp:987-1001"]}
{"id": "C132", "title": "The integral subdatum of a rational weight", "statement": "integrality_datum gives a root datum whose roots are exactly those of the given datum whose coroots have an integral value on the weight.", "quantifier": "all root data of rank at most 32 with Cartan matrix of finite type, all rational weights", "why_tests_cant": "the sets of integral roots of all weights are an unbounded family of subsystems", "anchors": ["sources/structure/rootdata.cpp:1578-1581"]}
{"id": "C133", "title": "Folded root data", "statement": "For the orbits of an involution that permutes the simple roots, also as computed by fold_orbits, cofold gives a root datum: the pairings of the folded roots and coroots are a Cartan matrix of finite type, and the datum is built on them.", "quantifier": "all root data of rank at most 32 with Cartan matrix of finite type, all involutions permuting the simple roots", "why_tests_cant": "that folding always gives a finite type is an argument about all types and involutions", "anchors": ["sources/structure/rootdata.cpp:1608-1683"]}
{"id": "C134", "title": "A subsystem is a root system isomorphic to its image", "statement": "The constructor of SubSystem succeeds for the simple basis of a closed set of roots. The base object is the root system of the pairings of the basis; to_parent maps its roots one to one onto the members of the set, with the same coefficients of roots and of coroots, compatible with signs, negation and reflections; from_parent is the inverse, and gives RootNbr(-1) for numbers that are not members.", "quantifier": "all root data of rank at most 32 with Cartan matrix of finite type, all sets of roots closed under reflections with their simple basis", "why_tests_cant": "the numbering of the subsystem comes from an independent construction of a root system and the map from descents in it; that the two agree for every closed set needs a proof", "anchors": ["sources/structure/subsystem.cpp:30-57", "sources/structure/subsystem.cpp:104-121", "sources/structure/subsystem.h:45-110"]}
{"id": "C135", "title": "Words of a subsystem", "statement": "For each positive root of a subsystem the stored word takes its image in the parent, and the coroot, to the stored simple root of the parent, and the stored reflection word is that word conjugating the simple reflection and acts on the lattice as the reflection in the root.", "quantifier": "all root data of rank at most 32 with Cartan matrix of finite type, all sets of roots closed under reflections with their simple basis, all positive roots", "why_tests_cant": "the words are found by descents of a length that depends on the root; a wrong order shows only for roots of large height", "anchors": ["sources/structure/subsystem.cpp:59-88"]}
{"id": "C136", "title": "Integral systems, singular generators, sets and predata of subsystems", "statement": "integral gives the subsystem of the roots whose coroot has an integral value at the rational weight; singular_generators gives the simple roots whose coroot vanishes at the weight; simple_roots and positive_roots give the sets named; pre_root_datum has the simple roots and coroots of the subsystem as columns. The order of roots asked for by pre_root_datum is the opposite one, so the datum made from it may number the roots otherwise than the subsystem.", "quantifier": "all root data of rank at most 32 with Cartan matrix of finite type, all sets of roots closed under reflections with their simple basis, all weights and denominators, all orders of roots", "why_tests_cant": "that the pairings are complete for all weights is not a matter of samples; the numbering differs only for systems with roots of two lengths", "anchors": ["sources/structure/subsystem.cpp:90-102", "sources/structure/subsystem.cpp:123-153"]}
{"id": "C137", "title": "Subsystems moved by a Weyl group element", "statement": "image_simples gives the images of the simple roots of a subsystem under a Weyl group element in increasing order; when these are positive they are the simple basis of the image of the subsystem, so int_system constructs the subsystem of the image, and the rows of coroots_matrix are its simple coroots in that order.", "quantifier": "all root data of rank at most 32 with Cartan matrix of finite type, all sets of roots closed under reflections with their simple basis, all words", "why_tests_cant": "that images of a basis form the basis computed for the image set is a theorem about positive systems, for all words", "anchors": ["sources/structure/subsystem.cpp:189-218"]}
{"id": "C138", "title": "Torus elements: construction, comparison and logarithms", "statement": "exp_pi and exp_2pi of a rational vector give the reduced representative of the element named, with entries in [0,2); reduce restores that form; two reduced elements compare equal exactly when their logarithms differ by even integers; log_pi and log_2pi give logarithms, reduced where that is promised, with entries in [0,1) for log_2pi. The only failure is overflow for denominators of at least 2^62 (for exp_2pi also of the doubled numerators).", "quantifier": "all ranks, all rational vectors of 64-bit entries", "why_tests_cant": "the reduction of negative and of large entries for every denominator, and the exact overflow bound, are beyond sampling", "anchors": ["sources/structure/y_values.cpp:28-51", "sources/structure/y_values.h:44-66", "sources/structure/y_values.cpp:109-117", "sources/structure/y_values.h:107-108"]}
{"id": "C139", "title": "Torus elements form a group", "statement": "operator+ and operator- give the reduced form of the sum and difference, and += for an element of order 2 adds the bits, each shifting an entry by 1 modulo 2; subtracting what was added gives back an equal element. There is no failure when the least common denominator is below 2^61 (respectively the denominator below 2^62).", "quantifier": "all ranks, all torus elements of finite order with denominators as large as the stated bounds allow", "why_tests_cant": "results are kept in the interval by a single conditional correction; that one correction suffices for all inputs needs the invariant", "anchors": ["sources/structure/y_values.cpp:73-107"]}
{"id": "C140", "title": "Values of weights at torus elements", "statement": "evaluate_at gives the value modulo 2 in lowest terms, for integer weights and for weights modulo 2; negative_at gives the parity when the value is an integer; is_central holds exactly when all the given roots have even values, provided the scalar products fit the type int. Without that proviso it can answer wrongly.", "quantifier": "all ranks, all torus elements of finite order with denominators as large as the stated bounds allow, all weights whose values can be computed without overflow", "why_tests_cant": "the value of the scalar product exceeds the type in which it is accumulated only for large denominators", "anchors": ["sources/structure/y_values.cpp:53-71", "sources/structure/y_values.h:72-76", "sources/structure/y_values.cpp:140-151"]}
{"id": "C141", "title": "Actions on torus elements", "statement": "reflect and simple_reflect act as the reflection, act_by as the matrix; each, followed by reduce, gives the reduced form of the image, which depends on the element only; left_symmetrise and right_symmetrise give half the sum with the image; simple_imaginary_cross adds the root modulo 2 when the coroot takes the value 1 and leaves the element as it is when it takes the value -1.", "quantifier": "all ranks, all torus elements of finite order with denominators as large as the stated bounds allow, all root data of rank at most 32, all roots, all square matrices", "why_tests_cant": "the methods skip the reduction, so that the invariant must be followed through all sequences of calls", "anchors": ["sources/structure/y_values.cpp:119-138", "sources/structure/y_values.h:78-104"]}
{"id": "C142", "title": "Logarithms fixed by an involution", "statement": "stable_log gives a vector fixed by the involution, and if the element has any fixed logarithm then the result is a logarithm of it. The comment asks only that the element be fixed; this is not enough.", "quantifier": "all ranks, all torus elements of finite order with denominators as large as the stated bounds allow, all involutions of the lattice", "why_tests_cant": "correctness rests on the adapted basis of the lattice image, for every involution", "anchors": ["sources/structure/y_values.cpp:153-166", "sources/structure/y_values.h:119-125"]}
{"id": "C143", "title": "Normal form of an involution of a lattice, and its computation", "statement": "Every involution of a lattice has a basis of which a members are fixed, b change sign and c pairs are exchanged; (a,b,c) is determined by the involution; tori::classify returns (a,c,b), that is compact, complex and split rank, unless an integer overflows, and its three unsigned subtractions never wrap around.", "quantifier": "all ranks up to RANK_MAX, all integer matrices of order 2, any width of the integer type", "why_tests_cant": "existence and uniqueness of the normal form are statements about all integer matrices of order 2 of all sizes", "anchors": ["sources/structure/tori.cpp:189-197"]}
{"id": "C144", "title": "The dual of the component group of a real torus", "statement": "dualPi0 gives the subquotient (V+ + V-)/V+ where V+ and V- are the images modulo 2 of the eigenlattices for 1 and -1, although the code computes the first space as a kernel modulo 2; the space has dimension a+b+c and the quotient dimension b for an involution of type (a,b,c).", "quantifier": "all ranks up to RANK_MAX, all integer matrices of order 2, any width of the integer type", "why_tests_cant": "the equality of the kernel with the sum of the two images uses division by 2 of arbitrary lattice vectors", "anchors": ["sources/structure/tori.cpp:162-176"]}
{"id": "C145", "title": "Construction of a real torus and its ranks", "statement": "The constructor stores bases of the two eigenlattices with matrices that give the coordinates of their vectors, the subquotient of C144 and the complex rank; the plus and minus ranks are a+c and b+c, complexRank c, compactRank a, splitRank b, twoRank a+b+c, the dimension of the topology b; isCompact holds exactly when the involution is the identity, isSplit exactly when it is minus the identity.", "quantifier": "all ranks up to RANK_MAX, all integer matrices of order 2, any width of the integer type", "why_tests_cant": "bases of eigenlattices and coordinate matrices are specified for all vectors of the lattice", "anchors": ["sources/structure/tori.cpp:101-114", "sources/structure/tori.cpp:221-236", "sources/structure/tori.h:68-127"]}
{"id": "C146", "title": "Dual tori and maps of component groups", "statement": "The dual torus is the torus of minus the transposed involution; its type is (b,a,c). componentMap gives, for each map of lattices compatible with the involutions, the matrix of the induced map between the two quotients of C144.", "quantifier": "all ranks up to RANK_MAX, all integer matrices of order 2, any width of the integer type, all integer matrices compatible with the two involutions", "why_tests_cant": "compatibility with the subquotients has to hold for all vectors and all compatible maps", "anchors": ["sources/structure/tori.cpp:116-117", "sources/structure/tori.cpp:132-141"]}
{"id": "C147", "title": "Imaginary, real and complex roots", "statement": "The InvolutionData constructors give the permutation of the root numbers that goes with the map on weights, the sets of roots that are fixed, negated, or neither, and for the first two the increasing list of the positive members that are not sums of two positive members. This holds for a matrix, for given images of the simple roots, and for a set of positive roots whose closure under negation is a subsystem; an involution gives a permutation of order 2.", "quantifier": "all root data of rank up to RANK_MAX with finite root systems, all automorphisms, any width of the integer type", "why_tests_cant": "the classes depend on a permutation computed from the images of simple roots only, and the simple lists need the sets to be closed under their own reflections, which no test of particular groups establishes", "anchors": ["sources/structure/involutions.cpp:30-39", "sources/structure/involutions.cpp:41-55", "sources/structure/involutions.cpp:59-92", "sources/structure/involutions.cpp:94-103"]}
{"id": "C148", "title": "Conjugating the classified roots by a simple reflection", "statement": "cross_act with the permutation of a simple reflection gives the conjugate permutation, although it exchanges entries in place, and the classes of the conjugate; the lists remain the simple members when the simple root is in neither class, and contain its negative when it is.", "quantifier": "all root systems of rank up to RANK_MAX, all classified permutations, all simple reflections", "why_tests_cant": "the in-place exchange relies on the reflection being an involution and on each pair being exchanged once; the condition on the simple root is nowhere checked by the code, and is met by add_cross because conjugating by an imaginary or real simple root gives the same involution", "anchors": ["sources/structure/involutions.cpp:122-138", "sources/structure/involutions.cpp:226-238", "sources/utilities/permutations.cpp:92-118"]}
{"id": "C149", "title": "Factoring 1 minus an involution", "statement": "add_involution computes for a matrix theta two factors of 1-theta: lift_mat with independent columns after M_real with full integral image. For an involution M_real*lift_mat is multiplication by 2. For an involutive automorphism of a root datum, the division of (1+theta)(2rho) by 2 is always exact, so th1_rho is (1+theta)rho.", "quantifier": "all square matrices; for th1_rho all root data and involutive automorphisms", "why_tests_cant": "the factors come from an adapted basis whose choice is not determined by the input, and the exactness of the division is a fact about the positive roots exchanged by an automorphism", "anchors": ["sources/structure/involutions.cpp:184-225", "sources/structure/involutions.cpp:200-210"]}
{"id": "C150", "title": "Weights modulo the image of 1 minus an involution", "statement": "lambda_unique moves a weight by an element of (1-theta)X* to one whose image by M_real has all coordinates 0 or 1; two weights get the same result exactly when they differ by an element of (1-theta)X*.", "quantifier": "all involutive matrices of any size, all weights, any width of the integer type", "why_tests_cant": "a canonical representative must agree on every pair of congruent weights, infinitely many for each class", "anchors": ["sources/structure/involutions.cpp:322-331"]}
{"id": "C151", "title": "Parities of weights at an involution", "statement": "y_pack gives the parities of the coordinates of M_real*lambda; equal results mean images by 1-theta that differ by twice an element of (1-theta)X*. y_lift takes the parities of lambda to (1-theta)lambda up to such doubles, y_unlift undoes y_lift and throws only for vectors with an odd coordinate, and y_act with a matrix intertwining two involutions takes the parities of lambda to those of its image, without exception.", "quantifier": "all involutive matrices of any size, all weights, any width of the integer type", "why_tests_cant": "that the packed bits determine the class, and that unlifting after a map is exact, hold by the relation between the two factors and not by inspection of single vectors", "anchors": ["sources/structure/involutions.h:212-213", "sources/structure/involutions.h:220-222", "sources/structure/involutions.h:248-251", "sources/structure/involutions.cpp:346-356"]}
{"id": "C152", "title": "Rational weights at an involution", "statement": "real_unique replaces a rational weight q by a vector in the class of (1-theta)q/2 modulo (1-theta)X* whose coordinates on the columns of lift_mat lie in [0,1), in lowest terms; two weights get the same result exactly when (1-theta)q1-(1-theta)q2 is twice an element of (1-theta)X*.", "quantifier": "all involutive matrices of any size, all weights, any width of the integer type; numerators of 64 bits", "why_tests_cant": "equality of results must decide a congruence of rational vectors with arbitrary denominators", "anchors": ["sources/structure/involutions.cpp:334-344"]}
{"id": "C153", "title": "Record of a conjugate involution", "statement": "add_cross updates theta, M_real, lift_mat and th1_rho by reflections and by adding two roots; the result is a record for the conjugate involution: the factors are factors of 1 minus the conjugate and th1_rho is its image of rho.", "quantifier": "all root data, all records, all simple reflections", "why_tests_cant": "the update never recomputes the factors, so an error would spread to all involutions reached from it", "anchors": ["sources/structure/involutions.cpp:226-256"]}
{"id": "C154", "title": "Torus parts up to equivalence", "statement": "x_pack reduces a rational coweight to the fractional parts of its image by the saturated rows of theta^t+1; x_equiv tests the difference. Both decide whether the difference of two coweights is an integral vector plus a vector negated by theta^t.", "quantifier": "all involutive matrices of any size, all weights, any width of the integer type; numerators of 64 bits", "why_tests_cant": "saturation makes the matrix onto for integers; without that the test would refuse some equivalent elements", "anchors": ["sources/structure/involutions.cpp:279-294", "sources/structure/involutions.cpp:297-319"]}
{"id": "C155", "title": "The denominator of torus parts of order 2", "statement": "fiber_denom is the reduction modulo 2 of the lattice negated by the transposed involution, and add_cross turns it into the same space for the conjugate by applying the reflection of the simple root modulo 2.", "quantifier": "all matrices of rank up to RANK_MAX; for the conjugate all root data", "why_tests_cant": "the space is transported and never recomputed, and the image under a reduced matrix must be the reduction of an integral eigenlattice", "anchors": ["sources/structure/tits.cpp:834-838", "sources/structure/involutions.cpp:170-182", "sources/structure/involutions.cpp:253"]}
{"id": "C156", "title": "Finding the orbit of an involution", "statement": "locate, a binary search in the starting numbers of the orbits, returns the last orbit that starts at or before the number, also when some orbits are empty.", "quantifier": "all nondecreasing lists of starting numbers beginning with 0, all numbers", "why_tests_cant": "off by one errors of the interval ends show for some lists only", "anchors": ["sources/structure/involutions.cpp:401-417"]}
{"id": "C157", "title": "Construction of a Tits group", "statement": "The constructors store the simple roots and coroots modulo 2 and the transposed involution modulo 2, in the basis of the lattice or in the basis of fundamental coweights; the stored data satisfy the relations between roots, coroots, twist and involution that the group needs. Reflections of torus parts, and the actions of Weyl group elements from the left and the right, are the products of the reflections along any words for these elements, and undo each other; involutionMatrix is the matrix of a twisted involution on torus parts.", "quantifier": "all root data with Weyl group and an involutive automorphism permuting the simple roots; all Cartan matrices; all torus parts and words", "why_tests_cant": "the action must not depend on the word stored for an element, for all elements of all Weyl groups", "anchors": ["sources/structure/tits.cpp:372-400", "sources/structure/tits.cpp:403-430", "sources/structure/tits.cpp:434-451", "sources/structure/tits.cpp:530-543", "sources/structure/tits.h:523-536"]}
{"id": "C158", "title": "Values are elements of the Tits group", "statement": "The pairs of a torus part and a Weyl group element stand one to one for the elements of the group generated by sigma_s and the 2-torus with relations sigma_s^2=m_s, the braid relations, and the action on the torus. Equality of values is equality in the group; different shortest words for a Weyl group element give the same product of the sigma_s; every element has an inverse.", "quantifier": "all root data or Cartan matrices of finite type, all twists by diagram involutions, all words", "why_tests_cant": "injectivity says that no consequence of the relations identifies two values, a statement about all derivations; it needs the cocycle of the braid relations for every pair of generators", "anchors": ["sources/structure/tits.h:330-395", "sources/structure/tits.h:610-622"]}
{"id": "C159", "title": "Operations of the Tits group", "statement": "Multiplication by sigma_s and its inverse on either side, general products, multiplication by torus elements, the constructors from a torus part and a Weyl element on either side, the torus part read from the right, conjugation and twisted conjugation by generators all compute the product in the group, and never fail.", "quantifier": "all root data or Cartan matrices of finite type, all twists by diagram involutions, all words, all values", "why_tests_cant": "each operation corrects the torus part depending on whether a length goes up or down; wrong corrections agree for many elements", "anchors": ["sources/structure/tits.cpp:469-525", "sources/structure/tits.h:549-603"]}
{"id": "C160", "title": "The coset of a base element", "statement": "te_twisted is conjugation by the base element whose signs are the grading offset; is_valid decides whether (a delta)^2=1; strict_based_twisted_conjugate and basedTwistedConjugate are conjugation of a delta by sigma_s, and by sigma_s or its inverse according to the sign, for letters and for words; both preserve validity.", "quantifier": "all root data or Cartan matrices of finite type, all twists by diagram involutions, all words, all gradings (for conjugations those constant on orbits of the twist)", "why_tests_cant": "that conjugation by the base element respects the braid relations for any choice of signs, and that both corrections amount to a conjugation, are facts about all words", "anchors": ["sources/structure/tits.cpp:590-610", "sources/structure/tits.cpp:647-658", "sources/structure/tits.cpp:720-733", "sources/structure/tits.h:805-816"]}
{"id": "C161", "title": "Gradings and Cayley transforms", "statement": "simple_grading and compact_simples tell for which generators a delta is noncompact. For a generator that is imaginary for the Weyl part, both conjugations add m_s to the torus part when it is noncompact and do nothing otherwise; the Cayley transform (product by sigma_s) has the same square when it is noncompact, and a square differing by m_s otherwise, so it preserves validity in the first case and loses it in the second if m_s is not trivial. The inverse transform undoes it, and in general adjusts by the first vector of the given basis that makes the generator noncompact.", "quantifier": "all root data or Cartan matrices of finite type, all twists by diagram involutions, all words, all gradings constant on orbits of the twist", "why_tests_cant": "the statement for imaginary generators needs that the generator crosses any shortest word for the Weyl part without correction", "anchors": ["sources/structure/tits.cpp:612-644", "sources/structure/tits.cpp:849-855", "sources/structure/tits.h:775-800"]}
{"id": "C162", "title": "Global Tits groups: construction and actions", "statement": "The constructor stores the dual simple roots and coroots and the transposed involution, compatible with the twist. Weyl group elements act on rational vectors by the product of reflections along any word for them. involution_matrix is minus the matrix of the twisted involution; twisted, dual_twisted and theta_tr_times_torus give the reduced images of a torus element exp(pi i q) under the distinguished involution, its negative composed with the longest element, and the twisted involution; square_shifted gives exp(pi i (q+theta q)). The only failure is overflow of the machine integers.", "quantifier": "all root data with Weyl group and an involutive automorphism permuting the simple roots, all torus elements and words within the stated bounds on numerators", "why_tests_cant": "the image must not depend on the word stored for an element nor on the representative q, for all elements of all Weyl groups", "anchors": ["sources/structure/tits.cpp:86-106", "sources/structure/tits.cpp:108-135", "sources/structure/weyl.cpp:1114-1141"]}
{"id": "C163", "title": "Global Tits groups: validity", "statement": "is_valid decides whether the Weyl part is a twisted involution and the square is central, where the answer depends only on the torus element and the Weyl group element. The twisted involution acts as an involution, and fixes the square. The images of a valid element by twisted and by dual_twisted are valid, with the expected torus and Weyl parts.", "quantifier": "all root data with Weyl group and an involutive automorphism permuting the simple roots, all torus elements and words within the stated bounds on numerators", "why_tests_cant": "validity is a statement about all simple roots at a rational vector modulo even integers; the dual twist needs the longest element of every Weyl group", "anchors": ["sources/structure/tits.cpp:137-143", "sources/structure/tits.h:201-204"]}
{"id": "C164", "title": "Global Tits groups: cross actions", "statement": "For a valid element cross_act by a generator gives a valid element, with the Weyl part conjugated and the torus part reflected for a complex generator, reflected and shifted by the coroot for an imaginary one, unchanged for a real one; the result is half the change of length. Doing it twice gives the element back. Words act letter by letter on either side. descents gives the descent set. For elements that are not valid, with denominators above 2^32, the narrowing of the numerator to int makes cross_act of an imaginary generator wrong (refuted with a witness).", "quantifier": "all root data with Weyl group and an involutive automorphism permuting the simple roots, all torus elements and words within the stated bounds on numerators", "why_tests_cant": "all elements of all orders; the types of generators depend on lengths in the Weyl group", "anchors": ["sources/structure/tits.cpp:158-211", "sources/structure/tits.h:191-192"]}
{"id": "C165", "title": "Global Tits groups: gradings and Cayley transforms", "statement": "The value of an imaginary simple root at a valid element is an integer and compact gives its parity. The Cayley transform by a noncompact imaginary generator is valid with the same torus part, and makes the generator real. The inverse transform by a real generator gives a valid element for which the generator is imaginary and noncompact, whose torus part differs from the given one by an element x - theta x; it undoes the Cayley transform. With denominators above 2^32 the inverse transform may give an element that is not valid (refuted with a witness).", "quantifier": "all root data with Weyl group and an involutive automorphism permuting the simple roots, all torus elements and words within the stated bounds on numerators", "why_tests_cant": "validity of the transform needs the sign by which the twisted involution acts on the root, for all Weyl groups", "anchors": ["sources/structure/tits.cpp:232-254", "sources/structure/tits.h:208-215"]}
{"id": "C166", "title": "Square classes and compact simple roots", "statement": "compute_square_classes returns single simple roots fixed by the twist, in increasing order, such that every grading of the fixed simple roots differs from exactly one grading supported on them by the parities of the values at a coweight fixed by the distinguished involution. compact_simples for a torus element exp(pi i q) marks, among the given simple roots, exactly those whose value at q is odd.", "quantifier": "all root data within the size of the bit sets, all twists and matrices; all torus elements at which the given roots have integral values", "why_tests_cant": "existence and uniqueness of the representative is a statement about all gradings and all integral fixed vectors; it goes through a lattice computation with unbounded entries", "anchors": ["sources/structure/tits.cpp:319-356", "sources/structure/tits.cpp:840-847", "sources/utilities/bitset.cpp:61-70"]}
{"id": "C167", "title": "Change of basis of a square matrix", "statement": "on_basis returns the unique integral matrix h with g h = f g, where the columns of g are the new basis. An exception is thrown only if the columns are dependent, if the least denominator of their inverse does not fit in an int, or if there is no such integral matrix; otherwise the only failure is overflow of the entries.", "quantifier": "all square integral matrices", "why_tests_cant": "division by the denominator is exact only when the lattice is stable, for matrices of all sizes", "anchors": ["sources/utilities/matrix.cpp:288-295"]}
{"id": "C168", "title": "Dual component groups", "statement": "dual_component_group_basis returns a basis of the classes, in the dual of the component group of the torus, of the weights whose values on the simple coroots have the parities of an integral function on the coroot lattice fixed by the involution. For a torus this is the whole group, for a simply connected semisimple group it is trivial.", "quantifier": "all root data within the size of the bit sets, all involutions that preserve the lattices of roots and of coroots", "why_tests_cant": "the answer is a subspace of a quotient of lattices modulo 2, compared through a basis with a denominator; triviality for simply connected groups holds for all involutions", "anchors": ["sources/structure/topology.cpp:164-192"]}
{"id": "C169", "title": "Orthogonal sets made strongly orthogonal", "statement": "long_orthogonalize turns a set of pairwise orthogonal positive roots into a strongly orthogonal set, in which no sum or difference of two members is a root, with the same number of members and the same product of reflections. For an orthogonal set with roots of both signs it can read entries that do not exist.", "quantifier": "all root systems from Cartan matrices, all orthogonal sets of positive roots", "why_tests_cant": "pairs of roots are replaced while the set is being traversed; that no later pair is missed depends on the geometry of all root systems", "anchors": ["sources/structure/rootdata.cpp:784-805"]}
{"id": "C170", "title": "Maximal strongly orthogonal sets of noncompact roots", "statement": "max_orth selects one after the other the first positive root of the subsystem that is orthogonal to the previous ones and noncompact after the Cayley transforms through them, until there is none, and returns a strongly orthogonal set of the same size and with the same product of reflections. For a grading of a closed subsystem all members of the result are noncompact roots of the subsystem, and no noncompact root can be added with the set still strongly orthogonal.", "quantifier": "all root systems from Cartan matrices, all closed subsystems, all gradings", "why_tests_cant": "the gradings number 2 to the rank; the claim that the replaced roots are noncompact for the original grading is not checked by the code", "anchors": ["sources/structure/gradings.cpp:50-77", "sources/structure/rootdata.cpp:784-805"]}
{"id": "C171", "title": "Status of simple roots", "statement": "A new Status has all roots complex; setting a complex root gives it the value and leaves the others unchanged, the tests agree with the value, and two objects are equal when they agree on all 32 roots. Setting a root that is not complex does not overwrite it.", "quantifier": "all values of the 64 bits, all roots below 32", "why_tests_cant": "four to the power 32 states", "anchors": ["sources/structure/gradings.h:52-122"]}
{"id": "C172", "title": "Comparison of gradings", "statement": "GradingCompare compares the number of elements first, then the largest element where the sets differ; it is a strict total order.", "quantifier": "all pairs and triples of 32-bit sets", "why_tests_cant": "2 to the power 64 pairs", "anchors": ["sources/structure/gradings.cpp:101-105"]}
{"id": "C173", "title": "Grading at a root that need not be simple", "statement": "TitsCoset::grading carries the root (or its opposite) to a simple root by simple reflections, applying the cross actions to the element, and returns the grading of that simple root for the moved element. When the simple root reached is imaginary for the moved element, conjugation by a representative in the Tits group of the reflection in the original root multiplies the original element by the element of order two of the coroot if the answer is noncompact, and fixes it if the answer is compact.", "quantifier": "all Tits groups with twist over Cartan matrices of finite type, all compatible gradings, all elements and all roots", "why_tests_cant": "the answer is computed along one path of reflections; that it is a property of the root and the element alone is not visible in the runs", "anchors": ["sources/structure/tits.cpp:661-672"]}
{"id": "C174", "title": "Grading at a root from the torus part", "statement": "simple_imaginary_grading answers noncompact exactly when the number of compact simple roots in the expression of the root, counted with multiplicity, is even; at a simple root it agrees with simple_grading.", "quantifier": "all Tits groups over Cartan matrices of finite type, all gradings, all torus parts, all roots", "why_tests_cant": "2 to the power rank torus parts and gradings for each of the roots of each group", "anchors": ["sources/structure/tits.cpp:704-717", "sources/utilities/bitset.cpp:21-28"]}
{"id": "C175", "title": "The two gradings agree at simple imaginary roots", "statement": "At a root that is imaginary for a twisted involution and not the sum of two positive imaginary roots, all reflections by which grading carries it to a simple root are complex, and simple_imaginary_grading of the torus part is the answer of grading. The agreement holds for every imaginary root that is reached through complex reflections.", "quantifier": "all Tits groups with twist over Cartan matrices of finite type, all compatible gradings, all twisted involutions, all torus parts", "why_tests_cant": "the comment before the function calls it a proof of possibility; the argument in it is about all involutions of all groups and its callers (repr.cpp:397, K_repr.cpp:82) rely on it for final parameters", "anchors": ["sources/structure/tits.cpp:661-672", "sources/structure/tits.cpp:674-717"]}
{"id": "C176", "title": "Compactness of roots in a global Tits group", "statement": "The method compact for a root number carries the root to a simple root by cross actions. When the root is fixed by the twisted involution of the element, that simple root is imaginary for the moved element, its value there is an integer, and the answer is compact exactly when the integer is odd. When all the cross actions are complex, and in particular for every simple imaginary root, the answer is the parity of the value of the original root at the original element.", "quantifier": "all global Tits groups over Cartan matrices of finite type, all valid elements, all roots; torus parts of bounded size", "why_tests_cant": "the result depends on a loop of cross actions whose three cases change the torus part differently; the statement is for all groups, elements and roots", "anchors": ["sources/structure/tits.cpp:256-275", "sources/structure/tits.cpp:180-193", "sources/structure/tits.h:208-211"]}
{"id": "C177", "title": "Validity of elements of a global Tits group relative to a subsystem", "statement": "The form of is_valid with a subsystem answers whether the coroots, in the parent datum, of the simple roots of the subsystem all take even values at the square of the element. When those coroots are integer combinations of the roots that define the centre (parent datum dual to that of the group), every valid element passes, as the comment in the source says. With the datum of the group itself as parent this fails: for GSp(4) and its full subsystem a valid element is rejected.", "quantifier": "all global Tits groups, all subsystems of a datum of the same rank, all elements with torus parts of bounded size", "why_tests_cant": "the method is called nowhere in the sources, so no run reaches it; which parent datum makes the comment true is a statement about all elements", "anchors": ["sources/structure/tits.cpp:144-153", "sources/structure/subsystem.h:93"]}
