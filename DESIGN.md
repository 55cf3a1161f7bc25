# Formal model of altruct in Rocq (Coq 8.16.1)

## Layout

* `properties.jsonl` - the English properties (C01...).
* `rocq/theories/XxxModel.v` - executable Gallina model of one C++ unit; every definition cites file and lines.
* `rocq/theories/XxxSpec.v` - small specification vocabulary, independent of the model (only where the standard library has none).
* `rocq/theories/XxxProofs.v` - lemmas.
* `rocq/theories/XxxProps.v` - only the property theorems, their non-vacuity examples, and `Print Assumptions`.
* `MANIFEST.json` - property -> theorem names and status.
* `seeded/LOG.jsonl` - seeded-bug experiments against the theorems.

## Modelling conventions

* Machine integers are unbounded `Z` (C++ `/` and `%` are `Z.quot` and `Z.rem`) unless the property is about
  the word size; then the wrap `mod 2^w` is explicit.
* Undefined behaviour (out-of-range index, division by zero, exhausted loop fuel) is `None`; theorems state
  that the result is `Some`, so memory safety and termination are part of what is proved.
* `while` loops are recursion on explicit fuel given by the model as a function of the input.
* Template parameters (element type, functor, comparator, ring) are Section variables, hence universally quantified.
* External inputs (floating-point estimates, random generators, chunk sizes, schedules) are universally quantified.

## Plan per property

* **C01** gcd is the greatest common divisor - Z with truncated `Z.rem` (C++ `%`), fuelled loop with fuel |a|+1; Some-result theorem gives termination. Proof: Euclid invariant.
* **C02** Extended gcd returns Bezout coefficients - Same; loop state (g,h,xo,xn,yo,yn,i). Invariant a*xn+b*yn=g, determinant +-1, sign alternation.
* **C03** lcm and gcd_max meet their formulas - Model lcm with division by zero as None; gcd_max loop fuelled. Proof: divisibility order, primes.
* **C04** powT computes the power in any monoid - Polymorphic monoid (Section variables op/e with laws as theorem hypotheses); loop over exponent.
* **C05** Integer square roots are exact - Float sqrt is an arbitrary oracle value; correction loops modelled; int64 wrap ignored inside stated domain. Newton: invariant q1>=floor sqrt and decreasing.
* **C06** Integer cube roots are exact - As C05.
* **C07** Rounding division helpers round as named - Z.quot/Z.rem model, lia/nia.
* **C08** Digit expansion round-trips - List of digits; induction on n.
* **C09** Gray code is a bijection with adjacent codes one bit apart - N words, shift/xor fold over W=2^k; testbit extensionality.
* **C10** Bit scanning primitives return what they name - As C09; de Bruijn tables by finite sweep over the table index (finite domain) lifted by lemma.
* **C11** bit_reverse is the bit-reversal involution - As C09.
* **C12** next_combination on bitmasks enumerates the next subset of equal size - As C09, arithmetic characterisation of popcount.
* **C13** Modular add/sub/neg/mul are correct in machine arithmetic - Explicit wrap mod 2^w; UB of signed overflow a separate outcome.
* **C14** Modular inverse and division satisfy their equations - Uses C02.
* **C15** Chinese remainder combines congruences exactly - Uses C02; list fold.
* **C16** Garner's algorithm reconstructs the integer - Mixed radix induction.
* **C17** Jacobi symbol - Legendre symbols by Euler, Gauss lemma, Eisenstein lattice count, reciprocity; extended to products; loop invariant: j times the symbol of the current pair is constant.
* **C18** Modular square roots are square roots - Frobenius in Z/p[sqrt d] gives norm and root; Euler criterion gives termination of the search; Newton step with the inverse by Euler; CRT for the combination.
* **C19** The prime sieve lists exactly the primes - Array as list with bounds-checked access; sieve loop invariants.
* **C20** Sieved multiplicative functions are correct - Sieve loop invariants against divisor-set specification.
* **C21** Factorisation tables factor every integer - Sieve invariant + division loop.
* **C22** divisors enumerates exactly the divisors - Enumeration by induction over prime list.
* **C23** segment_tree range queries equal the fold of the current values - Bounds-checked array model, invariant node = fold of children; arbitrary monoid.
* **C24** lazy_segment_tree range updates and queries - Array of (value,update) pairs; invariant relating pushed/unpushed updates.
* **C25** binary_heap is a priority queue - Bounds-checked array; multiset by Permutation.
* **C26** disjoint_set maintains the generated partition - Array of parents (negative size at roots); rank/size forest invariant.
* **C27** fenwick_tree prefix sums - Bounds-checked array; i&-i arithmetic.
* **C28** binary_search_tree is an ordered multiset - Heap-level model: nodes are addresses with parent, left, right, size, balance and value fields, a sentinel node as in the code, freed addresses fail. A representation predicate links heaps to lists of (iterator, value, multiplicity); zippers give the parent links in the proofs.
* **C29** treap keeps BST and heap order for every random choice - Rotation up by priorities over an arbitrary random stream.
* **C30** rope behaves like a sequence - Implicit-key tree refinement to list.
* **C31** bit_vector bitwise operations act bit by bit - Words as integers with a testbit abstraction to a list of bits; each word loop has an invariant on bit positions.
* **C32** bit_vector shifts move bits - As C31; the faithful model refutes the multi-word left shift.
* **C33** Pool allocator never hands out a live cell twice - Free-list model over history.
* **C34** lohi_map / sqrt_map behave like a finite map - Two-part map vs finite map; faithful model refutes parts.
* **C35** polynom addition and multiplication implement polynomial arithmetic - Coefficient list; sums over any commutative ring.
* **C36** Karatsuba equals schoolbook multiplication - Recursion with explicit boundaries; fuel.
* **C37** Polynomial division with remainder - Coefficient list; invariant of long division.
* **C38** Power series inverse - Newton invariant.
* **C39** matrix multiplication, power and transpose obey matrix algebra - List of lists / function matrices over a ring.
* **C40** Gaussian elimination gives determinant, inverse and rank - Row-operation model; rank refuted by witness.
* **C41** fraction is the field of rationals in lowest terms - Z pairs; cross-multiplication.
* **C42** quadratic and complex extension rings - Ring tactic on pairs.
* **C43** nimber arithmetic is a field of characteristic 2 - Tower of quadratic extensions; N words; trace argument for irreducibility.
* **C44** permutation conversions and group operations - List of cycles / line; cycle lemma.
* **C45** Binary search returns the first true index - Z interval loop.
* **C46** KMP reports exactly the occurrences - Border array invariant.
* **C47** Collection helpers: run-length, compare, take, filter - List functions.
* **C48** Cumulative polynomial hash of a range equals the hash of the substring - Z mod M; table growth history.
* **C49** Shunting-yard preserves meaning - Grammar of expressions; stack machine invariant.
* **C50** Buffered reader delivers the underlying byte stream unchanged - Buffer state machine over chunk oracle.
* **C51** Buffered writer emits the written bytes in order exactly once - Buffer state machine.
* **C52** Integer printing and parsing round-trip - Digit list round trip.
* **C53** parallel_execute runs every job exactly once under every schedule - Small-step interleaving semantics of threads with two mutexes; invariant + progress measure.
* **C54** Bitwise convolutions - List split recursion for radix-2 loops; tensor-product argument.
* **C55** Subset sum transform, inversion and subset convolution - Same.
* **C56** sum_ratio equals the sum of floors - Lattice-point reciprocity.
* **C57** sum_sqrt style summation equals the direct sum - Quotient grouping.
* **C58** prime counting by sieving on quotients - Sieve on quotient set invariant.
* **C59** Range helpers - Index-wise induction.
* **C60** Linear recurrence evaluation - x^n mod char. polynomial as linear functional.
* **C61** Stirling tables - Recurrence vs polynomial / surjection identity.
* **C62** Random range mapping stays in range and is unbiased on accepted values - N words.
* **C63** Continued fractions and convergents - Determinant invariant.
* **C64** Farey neighbours - Neighbour determinant argument.
* **C65** Repeating decimal expansion - Remainder sequence, pigeonhole.
* **C66** Enumeration of partitions and permutations - Suffix invariant.
* **C67** Prime exponent in factorials and binomials - Legendre.
* **C68** reduce and mex - Folds; duplicates refute mex.
* **C69** with_infinity follows its documented table and moebius_tr composes - Field hypotheses; ring/field tactics; unary minus refuted.
* **C70** graph editing operations - Adjacency lists.
* **C71** Single-bit editing and sign-magnitude conversion - Z words with explicit wrap; testbit extensionality.
* **C72** Range sums and power sums - Sums over Z ranges by induction; closed forms by ring.
* **C73** Modular power - Square-and-multiply as a relation between residues and integers.
* **C74** Multinomial coefficients are exact - Product telescoping; divisibility of factorials.
* **C75** galois_field_2 words are independent copies of GF(2) - Bitwise extensionality of the carry-less word operations; ring laws of words under xor and and.
* **C76** Multiplicative order - Loop invariant: a^k = 1 and no prime already handled can still be removed; an exponent none of whose primes can be removed is the order.
* **C77** Primitive roots - Search loop; order phi(m) is equivalent to generating all units (pigeonhole on residues); an element of order lambda exists (elements of coprime orders multiply); lambda = phi exactly for 2, 4, p^k, 2p^k.
* **C78** k-th roots modulo m - Exponents of g: x^k = g^l becomes a linear congruence modulo the order, solved by modulo_div.
* **C79** Discrete logarithms - Loop invariants over powers; a collision bounds the search; Pohlig-Hellman digit by digit, Chinese remainders over the primes of the order.
* **C80** Discrete logarithms modulo a prime power - p = 2 bit by bit; odd p by Bach's theta, whose kernel is computed with the lifting-the-exponent lemma.
* **C81** Fast Fourier transforms - DFT as a sum over any commutative ring; the recursive transform by the even/odd identities, the in-place one by an invariant over blocks and the bit reversal by an involution argument.
* **C82** Convolutions by fast transforms - Orthogonality of the powers of a root (sum is 0 or n) turns the pointwise product into the cyclic sum; the wrappers pad with zeros or with the cyclic continuation. Pointer swaps are modelled with numbered arrays.
* **C83** Primality test by Miller and Rabin - The squaring loop decides whether -1 occurs among b^(2^i d); Fermat and x^(2m) - 1 = (x^m - 1)(x^m + 1) give acceptance of primes; below 2047 the model of the test is run in the kernel on every number and compared with trial division.
* **C84** Pollard's rho and factor_integer - gcd divides n; stack invariant: product of the stack and the factors is n, no accepted factor divides a stack number; the sum of squares of the stack decreases. Below 2047 by running the model.
* **C85** Factoring by trial division - Trial division invariant: no number below i divides the rest; the rest is prime once i*i exceeds it.
* **C86** Numbers with given prime factors - Induction on the number of primes, loop invariant over the exponent; vectors of exponents are enumerated without repetition; uniqueness of factorisation for distinct primes.
* **C87** Joint reduction of a fraction of products - Loop invariant on products and on coprimality of the numerators already passed; divisibility and coprimality force 1.
* **C88** Dirichlet convolution and division - Loop over multiples as an update of a table function; partial sums over the divisors below d; for division the invariant separates finished quotients from remainders. Associativity by exchanging sums, Moebius inversion from the sum of mu over divisors.
* **C89** Multiplicative convolution, division and divisor sums - Each prime pass multiplies exactly the numbers with a given exact power of p; the completed table is the product over primes of the values at the exact powers, which a multiplicative function equals; divisors of a product of coprimes are products of divisors.
* **C90** Completely multiplicative convolution and division - Induction along the table: h[i] = h[i/p] h[p] with both smaller; values at primes from the divisors 1 and p.
* **C91** Sieving summatory functions - The division invariant together with prefix sums already taken; the sum of a convolution by induction with the quotients of n+1.
* **C92** Counting squarefree numbers - Multiples of squares of primes are cleared; a number below N*N that is not squarefree has a prime square factor with the prime below N; prefix sums.
* **C93** Memoised summatory functions - Quotients n/k below the split point are grouped by value with a telescoping sum; induction on the recursion depth with an invariant that the table agrees with M.
* **C94** Mertens functions - The sum of mu over divisors restricted to odd numbers; mu(2m) = -mu(m) for odd m and 0 for even m gives the even sums from the odd ones at n/2; then C91 and C93.
* **C95** Counting squarefree numbers up to n - Every number is a square times a squarefree number in exactly one way, so the counts at n/k^2 add up to n; grouping as in C93.
* **C96** Sums of Euler's phi and maps of quotients - The sum of phi over the divisors of n is n; the Moebius transform (C88) gives phi, prefix sums, then C93 on a sqrt_map.
* **C97** Sums over coprime numbers - Induction on the primes; multiples of p among the numbers coprime to the others.
* **C98** Sums of multiplicative functions from sums over primes - Every t > 1 is p^e times a number without prime factors from p on; the recursion runs over t without its greatest prime power, and each call adds the sum over the class of t, found from prime sums at a quotient of n. Induction on the number of primes.
* **C99** Traversing rough numbers - The visits are a permutation of the numbers with least prime factor p_k: those are p^e and p^e times the numbers with a least prime factor beyond p; induction on the length of the rest of the table. calc_F_k by splitting off the exact power of p.
* **C100** Summing a multiplicative function in O(n^(2/3)) - The invariant of every phase is that the map holds the sums over p_k-rough numbers at a set of keys; from n^(1/3) on these numbers are primes and semiprimes; the Fenwick tree holds the same sums as prefix sums for keys below n / n^(1/3), kept up by the traversal (C99); swapped maps are tracked by what they hold.
* **C101** A link-cut tree answers like the forest it stands for - The memory is a map from pointers to nodes. Invariant: a family of disjoint splay trees holds all nodes, the in-order list of each is a chain of parents, its root points to the parent of the chain, sizes are right and aggregates too except perhaps at splay roots. Rotations keep the tree's in-order list and everything outside; splaying ends by the depth of the node, access by the length of the line of ancestors; then each operation changes the family and the forest alike. Induction on the history.
* **C102** Searching a root path by depth in a link-cut tree - Induction on the shape of the splay tree with the number of path nodes to the left of the subtree.
* **C103** Segmented primality sieve - A stride loop from the first multiple is described by what it does to each entry; after prime i an entry is struck iff one of the primes so far, with square at most x, divides x; composite numbers below L*L have a prime factor below L.
* **C104** Segmented totient and Moebius sieves - Per entry: x = s * tmp, phi = totient(s), tmp free of the primes so far; at the end tmp is 1 or prime. For mu the entry is the product of -p over the primes so far dividing x, or 0.
* **C105** Pythagorean triples up to a limit and with a fixed leg - Loops over a grid become flat_map over ranges. Coprime pairs of different parity give each primitive triple once (Euclid's formula, by unique factorisation of coprime squares); multiples of primitive triples give all. Fixed leg: divisors d of leg^2 with d = c - b.
* **C106** Triangles with an angle of 60 degrees - Rational points: (a : b : c) is parametrised by the ratio n/m in lowest terms with 2n <= m; the common factor is 1 or 3. Injective and onto the primitive triples; the bounds on m and n are implied by c <= c_max.
* **C107** Triangles with an angle of 120 degrees - As C106 with pairs n < m, coprime, not congruent modulo 3.
* **C108** Almost-Pythagorean triples - With x = (c-a)/2, y = (c+a)/2, u = (b-1)/2: xy = u(u+1). n = gcd(y, u+1), m = y/n gives the pair; Bezout coefficients in range are unique. Parity of c tells which of a, b plays which part.
* **C109** The tree of solutions of a^2 + b^2 + k = c^2 - Each matrix has an inverse; from the signs of two linear forms the parent and the matrix are read off, so parents are unique and smaller. Triples with q < 0 are exactly the generators; their a and b are within the searched bounds. The walk: invariant list = generators ++ children of the part walked over, weight 4^(n-c) for termination.
* **C110** Continued fraction expansion of quadratic irrationals - Q_n divides D - P_n^2 throughout and D is no square, so no Q_n is 0. Two consecutive positive Q_n give a reduced state, and otherwise Q_(n+2) < Q_n; reduced states stay reduced, the step is injective on them and there are at most 2 s^2, so the sequence is periodic from the first reduced state. The identities for G and B are by induction.
* **C111** Pell's equation x^2 - D y^2 = +/-1 - A pair with value N, |N| <= s, is written in the basis of two consecutive convergents; the coordinates stay non-negative while running through the expansion (otherwise |N| > s), so it is a multiple of a convergent. Q_n = 1 exactly at multiples of the period, and convergents multiply over a period.
* **C112** Pell's equation with a small right hand side - The same descent gives (n, f) with x + y sqrt D = f (G_n + B_n sqrt D), uniquely; n is reduced modulo the even period by multiplicativity.
* **C113** Generalised Pell equation: soundness - Values of G, B from C110; the squares dividing N from C22. Refutations are evaluated.
* **C114** xorshift64* loses no information - x xor (x >> k) is injective since d = d >> k only for d = 0; x xor (x << k mod 2^w) is injective bit by bit from below; an odd factor is injective modulo 2^w. An injective map of a finite set into itself is periodic (pigeonhole).
* **C115** xorshift1024* loses no information - The same lemmas for the two words a draw reads; the state is a finite set again.
* **C116** mtrand is MT19937 - The reference recurrence is stated on an infinite sequence. Loop invariant of reload: words before p are of the next block, the others of the present one. Array seeding is related to a cyclic sequence of written words. The zero state has only the zero state before it.
* **C117** cornacchia solves x^2 + d y^2 = p - Euclid's algorithm on (p, x) keeps, with the cofactors, vectors of the lattice of (u, v) with u = x v modulo p; the first remainder below the root of p is one of the shortest, so a solution, if there is one, has that norm.
* **C118** Primes as sums of two squares - Primes 1 modulo 4 have a root of -1 (Euler's criterion), and then the short vector has norm p. The table by loop invariants.
* **C119** squares_r_list gives every representation once - Composition with a representation of p is multiplication of Gaussian integers; every representation of p m comes from one of m (divisibility by a prime of the Gaussian integers). Primes 3 modulo 4 and 4 divide both parts. Sign stages as disjoint images.
* **C120** squares_r counts the representations - The representations of p m are two images of those of m that meet in p times those of m/p, so r(p^e m) = (e + 1) r(m). The count up to sign and order from the number of signed variants of a pair, 8 or 4, where at most one has 4.
* **C121** Two-prime FFT multiplication of polynomials over modulo<I> is exact - PmodModel: polynom_mod.h function by function (split in 16-bit halves, transforms modulo two primes, CRT in 64-bit words, recombination). Residues modulo P form a ring, the generic FFT theorem gives cyclic convolution modulo P, a bound on the half-products makes the CRT exact.
* **C122** Factorials modulo a prime power without the multiples of p - CmppModel.v models comb_mod_pp.h. Slow and table versions: loop invariants against the skipping factorial. Fast version: multiplicative Newton interpolation (differences of the exponents vanish modulo p^e) gives the alpha and beta formulas, Euler's theorem allows the exponents modulo phi, the sign for p = 2 comes from the value modulo 4; then the code is shown to compute those products.
* **C123** Factorials modulo a prime power without the power of p - Legendre splitting n! = (n/p)! p^(n/p) sk(n) iterated by the loop; generalised Wilson theorem (pairing of inverses) for the whole blocks.
* **C124** Binomial coefficients modulo a prime power - The three chains of n, k and n-k are followed at once; the sum of the Wilson exponents equals the number of carries from digit e-1 on (Kummer), which the code counts; uniqueness of the quotient by a unit.
* **C125** Series arithmetic is arithmetic modulo x^N - SerModel: a series is its list of N coefficients, operations on top of PolyModel. SerSpec: coefficient functions (products, powers, derivative, substitution). Each operator is shown to have the coefficients of the power series operation below x^N.
* **C126** Exponential and logarithm of a series - SerProofs: power series as a setoid ring with derivation; the equation y' = g y determines y when 1..N-1 are invertible. exp: with L = ln r and h = s - L of valuation l, r(1 + h) satisfies the equation modulo x^(2l-1). ln: its exponential solves the same equation as s.
* **C127** Powers of a series - Below the threshold binary powering; constant term 1 through exp(y ln s) and the equation y' = y0 (ln s)' y; other units by scaling; zero constant term by shifting. The failing cases are proved: negative exponents, the zero series, vanishing powers, exponents cut to int.
* **C128** Composition and reversion of series - Composition: the tables hold b^j and b^(Kj), the double sum is regrouped into blocks of K with K*K > N (C05). Reversion: Taylor expansion of s(r + h) modulo the square of h and the chain rule show that each step doubles the precision.
* **C129** Exponential and ordinary generating functions - Loop invariants with running factorials over any ring in which (N-1)! is invertible.
* **C130** A prime holder answers correctly after any history of calls - Record of lazily filled tables; invariant: a table is empty or right; induction over the list of calls; uses C19-C22.
* **C131** A factorial holder's tables and binomials are right - Tables from C59; binomial by Pascal's rule.
* **C132** Meissel's prime count is right after any history of calls - Memo invariant: a stored value is the rough-number count of its key, keys being injective below 2^48 and 2^16. Legendre recurrence and Meissel identity by counting duplicate-free lists; the pair loop by an invariant over prefixes of the primes.
* **C133** Bernoulli numbers are right - Akiyama-Tanigawa table: the m-th first-column entry is a fixed integer combination of 1/(k+1); the coefficients satisfy a binomial identity that telescopes to the recurrence.
* **C134** Sums of powers are right for every exponent and every history - Faulhaber: F(y+1) - F(y) = (p+1)(y+1)^p by the binomial theorem and the recurrence; loop invariant with the running binomial; invariant on the static vector over the list of calls.
* **C135** The discrete integral of a polynomial is right - Each coefficient contributes Faulhaber's polynomial of its exponent; invariant over the value of the result at every point.
* **C136** Closed forms of figurate numbers are right for every index - Induction on n; closed forms multiplied by 2, 3 or 6 and cancelled.
* **C137** Summatory divisor functions are right for every bound - Instance of C57 with the divisor sum exchanged: Sum_m Sum_{d|m} f(d) = Sum_d f(d) floor(n/d), by induction on n.
* **C138** Sums of powers weighted by powers are right - In the ring of formal polynomials: X^n p - q = (X-1)^(m+1) Sum_{k<=n} k^m X^k is preserved by the step p, q -> (X^2-X) p' - ..., then evaluated at x.
* **C139** The transitive closure has exactly the reachable pairs - Depth-first search invariant: marked nodes are reached, and successors of finished nodes are marked; measure 2*unmarked + stack.
* **C140** The transitive reduction is the least graph with the same reachability - Search invariant on the marks 0/1/-1 (a mark -1 has a walk of two or more edges, successors of finished nodes are -1); equality of reachability by induction on the number of nodes between u and v.
* **C141** All shortest paths are found - Invariant: every entry is a walk, and is at most the weight of every simple path through nodes below i; walks reduce to simple paths because cycles are not negative.
* **C142** Shortest paths from a source are found - Invariant over the finished nodes: their labels are at most every key in the queue, their edges are relaxed; ghost count of finished nodes bounds the loop.
* **C143** Prim's algorithm: what the result is and is not - Invariant: labels are edges, relaxed nodes have labelled successors; measure 2 * (edges lighter than the label of their target) + queue; refutation by computation.
* **C144** Topological sorting - Invariant of the stack (a path of edges, finished nodes are closed under edges) with an arbitrary visitor; for the sorting visitor the finished list is ordered, since an edge back to the stack would close a cycle; every node of a finite acyclic graph comes from a source by the pigeonhole principle.
* **C145** The forest of a depth first search - The same loop lemma; ghost order: the path from the root followed by the finished nodes, in which every parent precedes its children.
* **C146** Strongly connected components - Invariant over the search path, the active nodes and the finished components: path nodes reach every later active node, every active node reaches a path node at or before it, low of a path node is the index of an active node it reaches and bounds the targets of all scanned edges of its segment. Four preservation lemmas (lower, advance, visit, leave) compose the steps of the code.
* **C147** Clauses of two literals are decided - The implication graph is built (arcs characterised exactly), C146 gives its components in topological order; with a satisfying assignment truth follows edges, so no literal shares a component with its negation and the chosen literals are those with the later component; soundness is the final check.
* **C148** Products of plane-based geometric algebra - GaSpec.v defines a Clifford algebra on coefficient functions of bit masks with the sign found by counting exchanges; elem reads a class as such a function. Bilinearity reduces the composite classes to the 36 primitive pairs, each checked on the 16 coefficients by ring.
* **C149** Inverses in plane-based geometric algebra - The formula of each class times a, on the 16 coefficients, is the scalar norm2, by ring; the division is a scaling.
* **C150** Motions in plane-based geometric algebra - Each pair of classes is compared with the double product on the 16 coefficients by ring; composition follows from associativity and the reversal of products; the geometric facts are computations in coordinates.
* **C151** The geometric algebra of space - The algebra of GaSpec.v with n = 3 and squares 1; products on the 8 coefficients by ring. The inverse of a multivector: (1 + t) a = K with K = r - v r^-1 v, so K = 0 contradicts invertibility; left inverses are right inverses because a conj(a) is central.
* **C152** Range minimum queries - The block type is the rank of the numbers of elements popped at each step among all such vectors (ballot numbers), hence injective; equal vectors give equal stacks of minima, and the first minimum of [l, r] is the lowest stack entry at or after l. The sparse table and the query by merging overlapping ranges.
* **C153** Prefix trees under every history - Refinement: the live cells are the image of a prefix closed list of paths under an injective address map, and every cell is determined by its path, the paths and the numbered words. Each pointer update preserves this; removal keeps the paths that lie on the way to a word. Traversals and the destructor by induction on the depth.
* **C154** Dictionary matching with the Aho-Corasick automaton - Nodes are numbered prefixes. Invariant of the lazily filled automaton: every transition is absent, a child or the longest suffix that is a node; every suffix link is absent or right. Breadth first order makes all shorter nodes complete first; counts add up because the suffixes of a word that are nodes are the suffixes of its longest one.
* **C155** The tree of palindromic substrings - Every node stands for a palindrome (one of them for the imaginary palindrome of length -1). The search along the suffix links visits the palindromic suffixes by decreasing length, so it finds the longest that the letter extends. All other palindromic suffixes of the longer string are proper suffixes, hence prefixes, of the longest one and have occurred before. Propagation: every prefix of the string hands one token down its chain of palindromic suffixes.
* **C156** Optimal assignment - Invariants: the labels bound the costs, matched edges are tight, every tree vertex has a tight alternating way to the root, slack is the least gap to the tree. Every pass of the main cycle makes T grow, and T cannot contain all jobs. Augmentation is followed edge by edge. At the end the cost of the matching is the sum of the labels, which bounds every assignment.
* **C157** Maximum flow - Levels: the search ends closed under free edges, every level has a parent one below. Depth first search: the stack is a free path from the source, visited nodes are closed or on the stack, so the sink is found once per round; the path update changes only the net flow of source and sink and keeps the bounds. No level at the sink: the cut of the nodes with a level is saturated, and bounds every flow.
* **C158** Maximum bipartite matching - By C157 for the unit network: conservation makes the selected edges a matching and its size at least the value; every matching is itself a flow.
* **C159** Lowest common ancestors - Invariant of the search, run in lockstep with the one that computes parents: the list of entries has for every visited node an index, and the minimum between two indices is the lowest common ancestor with its depth. The segment tree by C23. Forests: an arc that is no parent edge would close the simple route over the common ancestor to a cycle; every route is at least as long as the steps over some common ancestor.
* **C160** Heavy-light decomposition - Both traversals follow the parents of C145, because every edge of a forest is a parent edge; sizes: the lists of descendants of the children are disjoint. Layout: every node visited after a node on the stack is below it, so a finished subtree is an interval; the current chain ends at the last visited node. parent(u, k): induction on the depth. Chains: the first visited child has the greatest size, so the size at least doubles at every other one. Walks: each loop adds the interval from the current node to the top of its chain or to the ancestor, by induction on the number of steps left.
* **C161** Search on a monotonic interval - Model over exact rational numbers for an arbitrary function. Invariant: the zero stays between lo and hi, and mid is one of them; hi - lo halves.
* **C162** Chromatic polynomials of trees, cycles and complete graphs - The polynomials are computed by the model of polynom.h (C35), whose evaluation is multiplicative. The colourings are listed node by node: k - 1 choices at every further node of a tree, k - i at node i of a complete graph; a cycle has the colourings of a path with different ends, and those with equal ends are those of the cycle with one node less.
* **C163** Suffix array: common prefixes and comparison of substrings - The sorted array is an input with the hypothesis that it lists the suffixes in increasing order; SA-IS is not modelled, so the theorems are partial. For a < b < c in lexicographical order lcp(a, c) is the minimum of lcp(a, b) and lcp(b, c): this gives the invariant of build_lcp_array (the next length is at least the last one minus 1) and the range minimum of get_lcp (with C152).
* **C164** Nested double-width integers compute as integers modulo a power of two - DintModel models double_int over prim_int at every nesting depth d as nested pairs of words of w bits; DintSpec gives the unsigned and the two's complement value. Induction on d for the comparisons and the carries; the product by an identity for the three products with their carries and borrows, and the range of the product shows that the top digit does not wrap. Postfix increment and division are refuted by witnesses. Not modelled: shifts, bit operations, strings.
* **C165** Vectors are ordered lexicographically and computed element by element, and their products are the geometric ones - VecModel has the loops of vectorNd on lists, with a scalar argument that may be a reference to an element and is read again at every step, and vector2d, vector3d as tuples. VecSpec defines the lexicographic order by the first difference, and parallel vectors by multiples. Loop invariants, and ring identities.
* **C166** Reading delimited tokens from a stream gives the words of the text - TokModel has the two reading loops on the list of the remaining characters, with the failure of get at the end. TokSpec describes a text by its fields, separators and tail. Induction on the fields; on the bound of the rounds for termination; a stuck character for the refutation.
* **C167** Bridges and articulation points of a graph are found from its chain decomposition - BicModel has the set operations of cut_edges and the marking of cut_vertices for any decomposition; BicSpec says when an edge is on a chain and when a vertex heads a later block. Inductions on the nested loops. EarSpec defines ear decompositions and bridges; EarProofs shows that removing an edge of an ear leaves its ends connected. Partial: the decomposition itself, and with it the connection to connectivity, is not modelled.

## Trusted base

* Coq 8.16.1's kernel (and `vm_compute`, used only for closed finite sweeps and examples).
* Axioms: `Print Assumptions` follows every property theorem in the `*Props.v` files; each prints
  "Closed under the global context". No axiom of our own; no axiom of any library is used by a property theorem.
* The gate also reports seven entries `Coq.ssr.ssrunder.Under_rel.*`: parameters of a module type in Coq's own standard
  library (loaded through its tactics). No theorem here depends on them, as the printed assumptions show.
* The reading of the C++: nothing here is extracted from or run against the code; each model definition cites the
  file and lines it transcribes, and states what it simplifies.
* No library other than Coq's standard library is used.
* The specification files (`*Spec.v`) and the statements in `*Props.v`.

Not modelled anywhere: compiler/ABI behaviour, exceptions and allocation failure, floating-point rounding (every
float result the code relies on is a universally quantified input), performance, template instantiation errors,
move semantics and aliasing of arguments, unless a model file says otherwise.

## Findings (disagreements between the faithful model and the intended property)

* `isqrt` (base.h): for x >= (2^31-1)^2 the correction step squares an int32-sized root beyond the signed range
  (`C05_isqrt_int32_overflow_refuted`).
* `lcm(0,0)` divides by zero (covered in C03); `multiple(a,b)` is below `b` for negative `a` (`C07_multiple_negative_refuted`).
* `next_combination(0, size)` shifts by the word width, which is undefined (`C12_zero_is_undefined`).
* signed `modulo_add`/`modulo_sub` (modulo.h:55-67) overflow for moduli above 2^30 (32-bit) or 2^62 (64-bit): the sum of
  two normalised values is formed in the signed type (`C13_signed_add_exact`, `C13_signed_refuted`).
* `modulo_normalize(INT_MIN, M)` negates INT_MIN (`C13_normalize_refuted`).
* `chinese_remainder` on an unsigned type tests `(a2 - a1) % g` after the difference wrapped, so it rejects solvable systems
  unless g divides 2^W (`C15_unsigned_refuted`); accumulating into a failed result (0,0) can divide by zero (`C15_accumulate_refuted`).
* `garner` gives wrong digits when a larger modulus precedes a smaller one, although its documentation only asks for pairwise
  coprime moduli (`C16_unordered_refuted`).
* `reduce_mex` counts repeated elements twice, so a sorted container with duplicates gives a wrong result (`C68_mex_duplicates_refuted`).
* `fraction(0,0)` divides by zero in its constructor (`C41_zero_over_zero_refuted`).
* `convergents` skips a leading quotient <= -2 (its inner loop only runs while the counter is below the quotient), so
  the convergents of -5/2 never contain -5/2 (`C63_negative_refuted`).
* `inv_factorials` given `k!` with k >= n (k > 1) divides by k! instead of (n-1)! (`C59_inv_factorials_refuted`);
  `make_inverses(0)` writes `*begin` of an empty range (`C59_inverses_empty_refuted`).
* `polynom::_mul` swaps its operands when the right one has the higher degree, so products over a non-commutative
  coefficient type (matrices, quaternions) come out as q*p (`C35_noncommutative_refuted`).
* `matrix::gauss` (matrix.h:193) eliminates "below" starting at row `rank` after moving the pivot to row `j`; once a column had
  no pivot, row `j` itself is eliminated, so `rank()` of a singular matrix can be too small (`C40_rank_refuted`). Determinant
  and inverse are unaffected.
* `polynomial_hash`: `h + M` is computed in `int32_t`, so a modulus above 2^30 overflows (`C48_overflow_refuted`); negative characters (signed `char`) give different hashes for equal substrings (`C48_negative_refuted`); `cumulative_hash::assign` appends to a non-empty object instead of replacing it (`C48_assign_refuted`).
* `buffered_reader::read(buffer, count)` with `count` above the buffer size delivers at most a buffer full and raises the failure flag although the input goes on (`C50_large_read_refuted`); `skip` never refills (`C50_skip_refuted`); `read_char` returns a signed `char`, so the byte 0xFF is indistinguishable from the end of input (`C50_eof_refuted`).
* `buffered_writer::write` with a buffer of size 0 never ends (`C51_capacity_refuted`). `write_integral_number` negates the least value of the type (undefined), reading its text overflows (`C52_min_refuted`), and `len > 50` is cut to 50 (`C52_len_refuted`).
* `parallel_execute` calls `create_worker` of the shared worker provider from all threads without a lock, although its comment says that none of the provided objects has to be thread-safe (`C53_create_worker_refuted`); `range_job_provider::next_job` overflows when `end + len - 1` is not representable (`C53_range_overflow_refuted`).
- **C44 (permutation.h 59-60)**: the documented order `(p1 * p2)(x) == p1(p2(x))` is false; the product applies the left factor first (`C44_product_refuted`, proved order in `C44_product`).
- **C44 (permutation.h 52)**: `operator==` compares cycle lists, so `p.pow(2) == p * p` can be false although both are the same permutation, and `identity.root(1) != identity` (`C44_equality_refuted`).
- `primes(p, q, n)` writes `p[m] = 0` after the m primes, one entry more than the documented size pi(n) (C19_size_refuted), also for n = 0 with p alone (C19_empty_refuted).
- `prime_pi` reads the entry after the last prime (C19_prime_pi_size_refuted) and counts the terminating 0 as a prime when n <= 2 (C19_prime_pi_small_refuted).
- `moebius_mu` with n = 0, `factor` with n <= 1 and `smallest_factor` with n = 0 access entries outside the table (C20_moebius_empty_refuted, C21_factor_one_refuted, C21_smallest_empty_refuted).
- `factor_integer` of a product containing 0 does not end (C21_zero_refuted, C21_product_zero_refuted), and the 0 entries of `smallest_factor` make `factor_integer` divide by zero (C21_smallest_then_integer_refuted).
- `integer_string(0, b)` is the empty string (C22_string_zero_refuted); `integer_digits` in base 1 never ends (C22_digits_base_one_refuted); digits from 36 on are outside the digit table (C22_string_base_refuted).
- `bit_vector::operator<<=` walks upwards over words it still has to read: with three or more words a shift by one duplicates bits (C32_shift_left_refuted). Bits moved beyond the size stay in the last word and reappear after `resize` (C32_stale_bits_refuted). Both shifts leave the word vector when the shift exceeds all words (C32_long_shift_refuted).
- `bounded_contiguous_allocator::clear` frees the pool but keeps `available_`, so cells in use at that time are lost for good (C33_clear_refuted); the class has a destructor but an implicit copy constructor, so a copy of the same type hands out the same cells (C33_copy_refuted).
- `lohi_map::at` returns a value for absent small keys instead of throwing (C34_lohi_at_refuted); `m[k]` after `erase(k)` shows the erased value in lohi_map and sqrt_map (C34_stale_value_refuted), and `sqrt_map::reset_max` leaves old values behind (C34_reset_stale_refuted).
- `binary_search_tree::clear` frees the root node only, so every other node is leaked; on an empty tree it frees the sentinel and then writes to it (C28_clear_refuted). `operator==` compares keys only: in mode COUNT trees with different multiplicities are equal (C28_eq_counts_refuted). `erase(it)` returns the parent of the removed node, not its successor.
- `treap::insert` of an existing key (modes IGNORE and COUNT) draws a new priority and only moves the node up, and `erase` of some copies in mode COUNT moves the node down and leaves it there: the heap order is lost (C29_reinsert_refuted, C29_partial_erase_refuted). `erase` of an empty range returns an iterator without a node (C29_empty_range_refuted). The random numbers must not be negative: the sentinel above the root has priority 0.
- `infix_to_postfix`: a prefix operator pops the stronger operators before it although their right operand is missing, so with a weak prefix operator `a * - b` is converted wrongly (C49_prefix_refuted); `f()` becomes a call with one argument and its evaluation reads below the stack (C49_no_arguments_refuted).
- `with_infinity::operator==` compares the number an infinite value happens to carry: 1/0 and 2/0 are both infinite and differ (C69_infinity_equal_refuted); unary minus of infinity is finite (C69_minus_infinity_refuted). `moebius_tr::inverse` of a conjugating transformation is the inverse map, but `t * t.inverse() == identity` fails (C69_inverse_product_refuted).
- `graph::contract` keeps the weight of an arbitrary parallel edge, separately for each direction, so an undirected weighted graph can become asymmetric (C70_contract_undirected_refuted); `contract(u, u)` inserts a vector into itself (C70_contract_self_refuted).
- `prime_power_sum_sqrt(z, 0, id)` divides by zero (C58_zero_refuted); `prime_pi(0)` and `prime_sum(0)` check for it first.
- `sqrt_hensel_lift_p2(y, k)` tests `y % 8 == 1` with the sign of C++, so a negative y has no roots for it (C18_negative_refuted); the branch for `s >= w2` never runs.
- `jacobi(n, m)` with a negative n leaves the loop with a wrong answer: jacobi(-1, 3) is 0 (C17_negative_refuted).
- `multiplicative_order` of a number that is not coprime to m returns the exponent it was given (C76_non_unit_refuted). `kth_roots_of_unity` misses roots when m has no primitive root (C78_not_cyclic_refuted). `discrete_log` has no answer for "no solution": it returns some other negative number than the documented -1 of the other functions (C79_no_solution_refuted).
- `cyclic_convolution` documents that the order of the root must be at least |u| + |v| - 1, but it needs ceil(|u|/|v|)|v| + |u| - 1; with a shorter order and |u| > |v| the answer is wrong (C82_documented_order_refuted).
- `factor_out(0, p, e)` never terminates (C85_factor_out_zero_refuted).
- `dirichlet_division_multiplicative` and `dirichlet_division_completely_multiplicative` (and the inverses built on them) document that g(1) must be invertible, but they are wrong unless g(1) = 1: with g = -1 and f = -d(n) the quotient is 1 and the tables get -1 at 2 (C89_g1_refuted, C90_g1_refuted).
- `sieve_m` writes M[1] even for n = 1, out of bounds of a table of one entry (C91_one_entry_refuted). `sieve_m_multiplicative` adds whatever M[0] holds beforehand to every entry (C91_stale_zero_refuted).
- `mertens_even(n, tbl)` passes n through a lambda with an `int` parameter. For 64-bit n whose low 32 bits convert to a number below 2 the value is one too large, for instance at n = 2^32 even when the table is complete below n (C94_mertens_even_int_refuted).
- `make_sqrt_map(f, 0)` and `sum_phi(0)` divide by zero (C96_zero_refuted).
- `sum_multiplicative` reads `pa[psz - 1]` before its test for n = 1, so an empty table of primes, which is the table of primes up to sqrt(n) for n < 4, makes it read before the table (C100_no_primes_refuted). For n from 2 to 7 with any of the tables tried, for n = 8 with the primes up to sqrt(8), and for tables with primes beyond n / n^(1/3), its main loop runs on to `pa[-1]` (C100_small_refuted).
- The comment of `traverse_rough_numbers` speaks of numbers with all prime factors at least p_k; it visits the numbers whose least prime factor is exactly p_k (C99).
- `link_cut_tree::link(node, parent)` does not check that node is a root; for a node with a parent it leaves that parent and hangs the node's root below the new parent instead (C101_link_non_root_refuted). `traverse` returns 0 rather than the last node when the callback leads off the path (C102).
- `lazy_treap.h` is not modelled: its `get` does not compile when instantiated, and its `update` does not recompute the aggregates above the changed range.
- `segmented_q` writes entries 0 and 1 without looking at e, so a range such as [0, 1) is written past its end (C103_short_range_refuted, C103_short_range_overwrites_refuted); `segmented_phi` and `segmented_mu` write entry 0 of the empty range at 0 (C104_empty_range_refuted).
- `eisenstein_triples60` is documented to give 0 < a < b < c, but it gives the equilateral triangles too (C106_strict_order_refuted). `generate_pythagorean_triples(n, generators)` keeps generators beyond n (C109_limit_refuted); the model of the walk has no way to end for generators like (0, 1, 1) with k = 0, whose child is itself.
- `pell(D, N, fN)` misses whole classes of solutions: for D = 2, N = -7 it gives only (5, 4), not the class of (1, 2), since pell_mz adds the period to an index in the pre-period (C113_classes_refuted). The listing `pell` stops after a round that adds nothing, so for D = 3, N = 6 it gives no solution although (3, 1) is one (C113_list_refuted).
- `mtrand::seed(bigSeed, 0)` reads bigSeed[0] of an empty array (C116_empty_refuted).
- `series::pow(a)` with a >= 200: for the zero series the recursion never ends (`lowest()` is 0 for zero); for a series x^l(...) with l*a > N, whose power is 0 modulo x^N, `shift` moves an iterator outside the vector; an exponent of 2^31 or more is cut by `int(a)`, so x.pow(2^32) is 1 modulo x^2 (C127_pow_zero_refuted, C127_pow_vanishing_refuted, C127_pow_int_refuted). A negative exponent below the threshold gives 1 (C127_pow_negative_refuted).
- `series` with N = 0: `operator*=` passes -1 as the degree bound and leaves one coefficient (C125_empty_mul_refuted); `composition` writes `tm[1]` into a vector of length 1 (C128_empty_composition_refuted). `shift(l)` with |l| > N is undefined (C125_shift_refuted).
- `series::integral` (and so `ln` and `exp`) divides by N although the coefficient N is dropped: over integers modulo a prime p the length N = p is not usable although all results below x^p are defined. `series::find_root` redeclares the template parameter T of the class and does not compile (not modelled).
* `prime_holder(2).pi(0)` is 1: `prime_pi` takes the terminating 0 for a prime (`C130_pi_two_refuted`). `prime_holder(1).pf()` writes index 1
  of a one-element table (`C130_factor_one_refuted`). `prime_holder::pi()` reads the vector of primes one element past its size
  (`C130_pi_past_end_refuted`); it works because the memory behind still holds the terminating 0.
* `factorial_holder(0)` reads `_fact[-1]` (`C131_empty_refuted`); `bin(sz, k)` is unchecked (`C131_bin_range_refuted`).
* `prime_pi_deprecated` needs one prime above sqrt(m); with the primes up to sqrt(m) its documentation asks for it reads past the end of `p`, or
  divides by the 0 with which `primes` ends the array (`C132_primes_to_root_refuted`). Its memo key confuses arguments once n >= 2^16 (`C132_key_refuted`).
* `sum_pow(p, n)` recomputes its static vector up to 1.5 times the old size, so it may divide by integers above p+1 that have no inverse in a
  finite field although a first call with the same p would not (`C134_growth_refuted`). The vector is also kept when the next call has another modulus.
* `transitive_closure` never emits an edge from a node to itself, even if the node is on a cycle or has a self loop (`C139_self_refuted`).
  `transitive_reduction` on a graph with cycles can return no edges at all (`C140_cyclic_refuted`; its documentation asks for acyclic graphs).
* `prim_spanning_tree` does not check that a node is still outside the tree before it changes the node's parent (it only excludes the parent of
  the current node). On a connected undirected graph of four nodes with positive weights the result is a cycle of parents without the root
  (`C143_tree_refuted`).
* `floyd_warshall` loses walks whose partial sums reach inf, even if the distance itself is below inf (`C141_inf_refuted`).
* `topological_sort` starts only at nodes without incoming edges: on a graph with cycles the nodes that no such node reaches are missing from the
  result, and a result with all the nodes does not imply that the order is topological (`C144_detects_cycles_refuted`).
* `sat2(clauses)` returns an empty vector both if the clauses cannot be satisfied and if there are none (`C147_vector`).
* pga.h:555 `operator-(zero, const B& rhs)` returns a reference to the temporary `-rhs`: subtracting a value whose class has a field that the
  class of the left operand lacks reads a dangling reference (`C148_mixed_difference_refuted`).
* `blade22::inv()` is wrong for bivectors that are not blades, as its comment says (`C149_line_inverse_refuted`), and `%` drops the pseudoscalar
  and ideal parts if the right operand times its reverse is not a scalar (`C150_general_sandwich_refuted`).
* The comment pga.h:948 says that `line(l, P)` passes through P/norm(l); it passes through P (`C150_line_through_scaled_point_refuted`).
* clifford3.h: `m *= m.r` and `r *= r.s` change the part their argument refers to before they have used it (`C151_own_part_refuted`).
  `make_rotor` divides by zero for opposite vectors (`C151_opposite_refuted`).
* range_minimum_query.h: `size()` counts the filler of the last block (`C152_size_refuted`). The marker of an empty table is -1 stored in a
  plain `char`; where `char` is unsigned it compares unequal to -1 and no table is ever filled (not modelled: the model has a marker
  that differs from every index).
* prefix_tree.h owns raw nodes but leaves the implicit copy constructor and assignment in place, so a copy shares the nodes and both
  destructors free them. Copies are not modelled; C153 is about one tree that is never copied.
* aho_corasick_trie.h: `build()` adds the root's count to itself, so an empty pattern counts twice (`C154_empty_word_twice`). For the same
  reason `build()` may run only once.
* dinic_flow.h: `construct_blocking_flow` never clears `visited[sink]`, so every round sends flow along one path only and the flow is not
  blocking (`C157_blocking_refuted`). The final result is right (`C157_max_flow`), but the number of rounds is that of Edmonds-Karp, not Dinic.
* bipartite_matching.h: an edge that is given twice is selected twice (`C158_repeated_edge_refuted`).
* heavy_light_decomposition.h: the constructor takes the graph by reference and swaps only the targets `v` of two edges, not the edges, so in a
  weighted graph the weights end up at other edges (`C160_keeps_edges_refuted`).
* heavy_light_decomposition.h walk_nodes between nodes of different trees: ancestor is -1 and the last call reads positions[-1] (C160_walk, second part: the model has no result there).
* polynoms.h monotonic_search: lines 26, 27 and 33 test whether the value is near 0 instead of near `y`, so for y other than 0 the search may stop at a zero: for p(x) = x on [0, 1] and y = 1/2 it returns 0 (`C161_value_refuted`). find_zeros only searches for 0 and is not affected.
* suffix_array.h line 48: the maximum of the letters is read through `*std::max_element(begin, end)` before the test for an empty string on line 56, so an empty string is undefined behaviour although the code below handles it.
* `double_int`: `x++` and `x--` leave `x` unchanged and return the changed copy; `unsigned_div` has its body commented out, so `/` and `unsigned_div` always give 0 (C164_post_increment_refuted, C164_division_refuted).
* `vectorNd`, `vector2d`, `vector3d`: the compound operators with a scalar take it by reference, so `v -= v[0]` or `v /= v[0]` use the changed first element for the others, and `v %= v[0]` divides by zero (C165_scalar_alias, C165_scalar_alias_refuted).
* `stream_tokenizer`: reading `tokens<token<P>, token<D>>` never ends, and the vector grows for ever, when the text has a character that is neither in `P` nor in `D` (C166_termination_refuted); a text that is empty gives one empty token.
