{"id": "C01", "title": "gcd is the greatest common divisor", "statement": "gcd(a,b) terminates, its result divides a and b, every common divisor of a and b divides it, and for non-negative a and b it is the non-negative gcd (gcd(0,b)=b).", "quantifier": "all integers a, b (any sign)", "why_tests_cant": "unbounded input pairs; Euclid's loop length and result can only be sampled", "anchors": ["include/altruct/algorithm/math/base.h:gcd"]}
{"id": "C02", "title": "Extended gcd returns Bezout coefficients", "statement": "gcd_ex(a,b,&x,&y,&s) terminates and returns g with a*x + b*y = g, g a greatest common divisor; for non-negative arguments g is the gcd, |x| <= b/g and |y| <= a/g (apart from the trivial cases), and the sign of x is determined by the parity of s.", "quantifier": "all integers a, b", "why_tests_cant": "coefficient identity and bounds over all pairs", "anchors": ["include/altruct/algorithm/math/base.h:gcd_ex"]}
{"id": "C03", "title": "lcm and gcd_max meet their formulas", "statement": "For non-negative a,b not both zero lcm(a,b) is the least common multiple; gcd_max(a,b) terminates, divides b, every prime factor of it divides a, and gcd(a, b/gcd_max(a,b)) = 1. lcm(0,0) divides by zero.", "quantifier": "all non-negative integers a, b", "why_tests_cant": "quantifies over all pairs and all divisors", "anchors": ["include/altruct/algorithm/math/base.h:lcm", "include/altruct/algorithm/math/base.h:gcd_max"]}
{"id": "C04", "title": "powT computes the power in any monoid", "statement": "powT(x,n) terminates and returns the n-fold product of x for every exponent n >= 0 and every associative operation with identity (integers, modulos, matrices, polynomials, permutations...).", "quantifier": "all monoids, all elements x, all n >= 0", "why_tests_cant": "ranges over all monoids and unbounded exponents", "anchors": ["include/altruct/algorithm/math/base.h:powT"]}
{"id": "C05", "title": "Integer square roots are exact", "statement": "isqrt(x) = floor(sqrt x), isqrtc(x) = ceil(sqrt x) for 0 <= x < 2^62 whatever value the floating-point sqrt returns (as long as it is close enough for the correction loops), and the generic Newton sqrtT terminates with floor(sqrt x).", "quantifier": "all x in the domain and every floating-point estimate", "why_tests_cant": "2^62 inputs times all possible rounding errors", "anchors": ["include/altruct/algorithm/math/base.h:sqrtT", "src/algorithm/math/base.cpp:isqrt"]}
{"id": "C06", "title": "Integer cube roots are exact", "statement": "icbrt(x) = floor(cbrt x) (rounded towards 0 for negative x) for any floating-point estimate; generic Newton cbrtT terminates with floor(cbrt x).", "quantifier": "all x in the domain and every floating-point estimate", "why_tests_cant": "domain too big; estimate unspecified by the C++ standard", "anchors": ["include/altruct/algorithm/math/base.h:cbrtT", "src/algorithm/math/base.cpp:icbrt"]}
{"id": "C07", "title": "Rounding division helpers round as named", "statement": "For b != 0: div_floor(a,b) = floor(a/b), div_ceil(a,b) = ceil(a/b), div_round(a,b) is a nearest integer to a/b, multiple(a,b) is the smallest multiple of a that is >= b (a>0).", "quantifier": "all integers a, all non-zero b, all sign combinations", "why_tests_cant": "infinitely many sign/remainder combinations", "anchors": ["include/altruct/algorithm/math/base.h:div_floor", "include/altruct/algorithm/math/base.h:div_ceil", "include/altruct/algorithm/math/base.h:div_round", "include/altruct/algorithm/math/base.h:multiple"]}
{"id": "C08", "title": "Digit expansion round-trips", "statement": "from_digits(integer_digits(n,b),b) = n, each digit lies in [0,b), there is no superfluous leading digit, and padding to a requested length only adds zeros.", "quantifier": "all n >= 0, all bases b >= 2, all lengths", "why_tests_cant": "unbounded n and b", "anchors": ["include/altruct/algorithm/math/primes.h:integer_digits", "include/altruct/algorithm/math/primes.h:from_digits"]}
{"id": "C09", "title": "Gray code is a bijection with adjacent codes one bit apart", "statement": "xor_down/ bin_to_gray and gray_to_bin are mutually inverse on W-bit words for every word width W = 2^k, and codes of consecutive numbers differ in exactly one bit.", "quantifier": "all word widths, all words", "why_tests_cant": "2^64 words per width", "anchors": ["include/altruct/algorithm/math/bits.h"]}
{"id": "C10", "title": "Bit scanning primitives return what they name", "statement": "hi_bit(x), lo_bit(x), or_down(x), is_pow2(x), next_pow2(x), lzc(x), tzc(x), bit_cnt1(x), ilog2(x) return highest set bit, lowest set bit, all-ones below it, power-of-two test, least power of two > x (0 when it does not fit), leading/trailing zero counts, population count and floor(log2 x).", "quantifier": "all words of the given width", "why_tests_cant": "2^32 / 2^64 inputs", "anchors": ["include/altruct/algorithm/math/bits.h", "src/algorithm/math/bits.cpp"]}
{"id": "C11", "title": "bit_reverse is the bit-reversal involution", "statement": "bit i of bit_reverse(x) is bit W-1-i of x; applying it twice is the identity.", "quantifier": "all words of width 2^k, all bit positions", "why_tests_cant": "2^64 inputs", "anchors": ["include/altruct/algorithm/math/bits.h:bit_reverse"]}
{"id": "C12", "title": "next_combination on bitmasks enumerates the next subset of equal size", "statement": "For x != 0 whose successor fits in the word, bits::next_combination(x) is the least y > x with the same number of set bits.", "quantifier": "all non-zero words whose successor fits", "why_tests_cant": "2^64 inputs and a minimality claim over all y", "anchors": ["include/altruct/algorithm/math/bits.h:next_combination"]}
{"id": "C13", "title": "Modular add/sub/neg/mul are correct in machine arithmetic", "statement": "For 1 <= M and normalised x,y in [0,M): modulo_add/sub/neg/mul return the representative in [0,M) of the exact result, with intermediate values wrapped to the machine word, including the 64-bit mul path that avoids 128-bit products. For signed 32/64-bit types addition and subtraction are defined for all operands exactly when the sum of the operands fits the type (always when 2M <= 2^(W-1)).", "quantifier": "all moduli of the type, all normalised operands", "why_tests_cant": "all 64-bit triples", "anchors": ["include/altruct/structure/math/modulo.h"]}
{"id": "C14", "title": "Modular inverse and division satisfy their equations", "statement": "modulo_inv(v,M) returns w in [0,M) with v*w = gcd-normalised 1 (mod M) when gcd(v,M)=1; modulo_div(x,y,M) returns z with z*y = x (mod M) whenever gcd(y,M)/gcd(x,y,M) is coprime as the code documents.", "quantifier": "all M >= 1 and all x,y in [0,M)", "why_tests_cant": "unbounded; non-coprime cases are sparse", "anchors": ["include/altruct/structure/math/modulo.h:modulo_inv", "include/altruct/structure/math/modulo.h:modulo_div"]}
{"id": "C15", "title": "Chinese remainder combines congruences exactly", "statement": "chinese_remainder(a1,n1,a2,n2) returns a with a = a1 (mod n1), a = a2 (mod n2), 0 <= a < lcm(n1,n2) whenever gcd(n1,n2) divides a1-a2, and reports failure otherwise; the list version folds this over any number of congruences.", "quantifier": "all moduli >= 1 (also non-coprime) and residues, lists of any length", "why_tests_cant": "unbounded moduli and list lengths", "anchors": ["include/altruct/algorithm/math/modulos.h:chinese_remainder"]}
{"id": "C16", "title": "Garner's algorithm reconstructs the integer", "statement": "garner(vap) on pairwise coprime moduli in non-decreasing order returns mixed radix digits x[i] in [0,p[i]) whose value Sum x[i]*p[0]*...*p[i-1] has residue a[i] modulo every p[i].", "quantifier": "all lists of pairwise coprime moduli in non-decreasing order, all residue lists", "why_tests_cant": "unbounded lists", "anchors": ["include/altruct/algorithm/math/modulos.h:garner"]}
{"id": "C17", "title": "Jacobi symbol", "statement": "jacobi(n,m) equals the Jacobi symbol (n/m) for odd m > 0 and n >= 0; in particular 0 exactly when gcd(n,m) != 1.", "quantifier": "all n >= 0 and odd m > 0", "why_tests_cant": "depends on quadratic reciprocity, unbounded", "anchors": ["include/altruct/algorithm/math/modulos.h:jacobi"]}
{"id": "C18", "title": "Modular square roots are square roots", "statement": "sqrt_cipolla terminates for every prime p and returns a value in 0..p-1 that is a square root of y whenever y has one. sqrt_hensel_lift for an odd prime p, k >= 1 and a residue y not divisible by p returns a root modulo p^k, and every root is plus or minus it. sqrt_hensel_lift_p2 for y >= 0 returns (0, 0) if y is even or has no root modulo 2^k, otherwise x1, x2 such that the roots are exactly the values x1, x2, -x2, -x1. sqrt_mod for y >= 0 coprime to m returns exactly the roots of y in 0..m-1, each once. (A negative y is rejected modulo a power of two although it has roots.)", "quantifier": "all primes, all exponents, all factored moduli, all y", "why_tests_cant": "unbounded moduli and exponents; termination of the search for a non-residue", "anchors": ["include/altruct/algorithm/math/modulos.h:sqrt_cipolla", "include/altruct/algorithm/math/modulos.h:sqrt_hensel_lift", "include/altruct/algorithm/math/modulos.h:sqrt_mod"]}
{"id": "C19", "title": "The prime sieve lists exactly the primes", "statement": "primes(p,q,n) sets q[i] true exactly for the primes i < n, returns their number and fills p, if it has one entry more than that, with all primes below n in increasing order and a terminating 0; with p alone, of n >= 1 entries, the flags may share its memory.", "quantifier": "all n", "why_tests_cant": "all n and all indices below n", "anchors": ["include/altruct/algorithm/math/primes.h:primes", "src/algorithm/math/primes.cpp:primes"]}
{"id": "C20", "title": "Sieved multiplicative functions are correct", "statement": "euler_phi, moebius_mu (n >= 1), prime_nu, divisor_sigma0, divisor_sigma1 tables contain at every index i < n (0 < i for the divisor tables) the totient, Moebius value, number of distinct primes, number of divisors and sum of divisors of i.", "quantifier": "all n and all indices below n", "why_tests_cant": "unbounded table size", "anchors": ["src/algorithm/math/primes.cpp:euler_phi", "src/algorithm/math/primes.cpp:moebius_mu", "src/algorithm/math/primes.cpp:divisor_sigma0"]}
{"id": "C21", "title": "Factorisation tables factor every integer", "statement": "smallest_factor stores the least prime factor of every composite index below n and 0 at 0, 1 and the primes; factor stores the biggest prime factor; factor_integer with any table of prime factors (in particular the one factor makes) appends the prime factorisation of n, or of a product of positive integers: distinct primes, positive exponents, product n.", "quantifier": "all n and table sizes", "why_tests_cant": "unbounded n", "anchors": ["src/algorithm/math/primes.cpp:factor", "include/altruct/algorithm/math/primes.h:factor_integer"]}
{"id": "C22", "title": "divisors enumerates exactly the divisors", "statement": "divisors(vf, factorisation, maxd) lists each positive divisor d <= maxd of n exactly once (all divisors when maxd is 0), divisor_sigma0, euler_phi and carmichael_lambda from a factorisation are the number of divisors, the totient and the least universal exponent, squarefree_signed_divisors lists mu(d)*d for each squarefree divisor once; integer_digits/from_digits/integer_string convert between a non-negative number and its digits for bases from 2 (strings: up to 36).", "quantifier": "all factorisations and all bounds", "why_tests_cant": "unbounded n", "anchors": ["include/altruct/algorithm/math/primes.h:divisors", "include/altruct/algorithm/math/primes.h:euler_phi"]}
{"id": "C23", "title": "segment_tree range queries equal the fold of the current values", "statement": "After any sequence of set/rebuild operations, get(b,e) equals the in-order fold with f of the current values on [b,e), for any associative f with identity (commutativity not needed); no out-of-range access happens.", "quantifier": "all monoids, all sizes, all operation histories, all ranges", "why_tests_cant": "all histories and all non-commutative monoids", "anchors": ["include/altruct/structure/container/segment_tree.h"]}
{"id": "C24", "title": "lazy_segment_tree range updates and queries", "statement": "After any sequence of range updates and point/range reads, get(b,e) equals the fold over [b,e) of the element values obtained by applying every update to every covered element individually.", "quantifier": "all value/update algebras satisfying the documented laws, all sizes, histories, ranges", "why_tests_cant": "all interleavings of lazily pushed updates", "anchors": ["include/altruct/structure/container/lazy_segment_tree.h"]}
{"id": "C25", "title": "binary_heap is a priority queue", "statement": "Every push/pop/modify sequence keeps the heap order, preserves the multiset of elements, front is a minimum element with respect to the comparator, and sort yields the sorted permutation.", "quantifier": "all total preorders, all histories", "why_tests_cant": "all histories, heap sizes and tie patterns", "anchors": ["include/altruct/structure/container/binary_heap.h"]}
{"id": "C26", "title": "disjoint_set maintains the generated partition", "statement": "After any sequence of unite calls find(x)=find(y) iff x and y are connected by the united pairs; count(x) is the size of x's class; unite returns whether the classes were distinct; the number of classes is reported; path compression changes no observable result.", "quantifier": "all sizes, all histories of unite/find", "why_tests_cant": "all histories", "anchors": ["include/altruct/structure/graph/disjoint_set.h"]}
{"id": "C27", "title": "fenwick_tree prefix sums", "statement": "After any sequence of add(i,v), get_sum(i) is the fold of all values added at indices <= i in any commutative monoid, with no out-of-range access.", "quantifier": "all sizes, histories, commutative monoids", "why_tests_cant": "all histories and index bit patterns", "anchors": ["include/altruct/structure/math/fenwick_tree.h"]}
{"id": "C28", "title": "binary_search_tree is an ordered multiset", "statement": "insert/erase/find/count/lower_bound/upper_bound/find_kth/count_less behave like the sorted sequence of keys for each duplicate-handling mode (ignore, store, count), sizes and parent links stay consistent, and erase removes exactly the designated element.", "quantifier": "all comparators, all histories, all tree shapes", "why_tests_cant": "all histories and tree shapes", "anchors": ["include/altruct/structure/container/binary_search_tree.h"]}
{"id": "C29", "title": "treap keeps BST and heap order for every random choice", "statement": "treap insert, insert_before and erase (by key, iterator or range) give the in-order sequence of the plain tree operation for every outcome of the random generator; the priorities stay in heap order in every history that neither inserts a key again (modes ignore, count) nor erases only some copies of a key.", "quantifier": "all random streams, all histories", "why_tests_cant": "all random streams", "anchors": ["include/altruct/structure/container/treap.h"]}
{"id": "C30", "title": "rope behaves like a sequence", "statement": "insert at position, erase a range, index access on rope act like the corresponding list operations for every random stream.", "quantifier": "all histories, positions, random streams", "why_tests_cant": "all histories", "anchors": ["include/altruct/structure/container/rope.h"]}
{"id": "C31", "title": "bit_vector bitwise operations act bit by bit", "statement": "Construction, resize, set/get/proxy assignment, push/pop, and/or/xor/not (also of a vector with itself), the one- and two-range operations (also on overlapping ranges of one vector), compare, hamming_distance, to_string, reverse, rotate and swap on bit_vector act on the represented bit sequence independently of the word size, and keep every bit beyond the size zero.", "quantifier": "all lengths, word sizes and contents", "why_tests_cant": "all lengths modulo the word size and all contents", "anchors": ["include/altruct/structure/container/bit_vector.h"]}
{"id": "C32", "title": "bit_vector shifts move bits", "statement": "v >>= s moves bit i to i-s and fills with zeros, for every s up to the width of all words. v <<= s moves bit i to i+s below the size and fills with zeros provided no word is read after it was overwritten (with w words in use and s = q*L + r: q <= w <= 2q+1, or q = 0 and (r = 0 or w <= 2)); outside that condition it does not, and it does not clear the bits moved beyond the size.", "quantifier": "all lengths, shift amounts, contents", "why_tests_cant": "all lengths and shifts (multi-word cases)", "anchors": ["include/altruct/structure/container/bit_vector.h:operator<<=", "include/altruct/structure/container/bit_vector.h:operator>>="]}
{"id": "C33", "title": "Pool allocator never hands out a live cell twice", "statement": "For any history of allocate/deallocate in which only cells in use are given back, a cell handed out is not currently in use and lies in the pool, every call is defined, and allocation of one cell succeeds whenever fewer than the capacity are in use and malloc has memory.", "quantifier": "all histories of allocate/free", "why_tests_cant": "all histories", "anchors": ["include/altruct/structure/container/bounded_contiguous_allocator.h"]}
{"id": "C34", "title": "lohi_map / sqrt_map behave like a finite map", "statement": "After any sequence of insertions, assignments, erasures and reads through operator[], the results and afterwards count and (for present keys) at agree with a finite map on all keys (sqrt_map: all keys up to the split point or of the form floor(max/j)); excepted are reads through operator[] of an absent key that was erased before. sqrt_map::at throws exactly for absent keys, and reset_max empties the part above the split point.", "quantifier": "all key types split points and histories", "why_tests_cant": "all histories", "anchors": ["include/altruct/structure/container/lohi_map.h", "include/altruct/structure/container/sqrt_map.h"]}
{"id": "C35", "title": "polynom addition and multiplication implement polynomial arithmetic", "statement": "add/sub/mul on coefficient vectors give the coefficients of the sum, difference and (possibly truncated) product over any commutative ring, also when output aliases an input.", "quantifier": "all commutative rings, all coefficient vectors, all truncation degrees", "why_tests_cant": "all sizes and rings", "anchors": ["include/altruct/structure/math/polynom.h:add", "include/altruct/structure/math/polynom.h:mul"]}
{"id": "C36", "title": "Karatsuba equals schoolbook multiplication", "statement": "the recursive Karatsuba multiplication with arbitrary truncation degree returns exactly the coefficients of the convolution, for all sizes of both operands.", "quantifier": "all commutative rings, all operand lengths and truncation degrees", "why_tests_cant": "all length combinations; recursion boundaries", "anchors": ["include/altruct/structure/math/polynom.h:_mul_karatsuba"]}
{"id": "C37", "title": "Polynomial division with remainder", "statement": "p1 = (p1/p2)*p2 + p1%p2 with deg(p1%p2) < deg p2 over any field (or monic divisor over a ring); long division and Newton (Hensel) division agree.", "quantifier": "all fields, all polynomials with invertible leading coefficient", "why_tests_cant": "all degrees", "anchors": ["include/altruct/structure/math/polynom.h:quot_rem"]}
{"id": "C38", "title": "Power series inverse", "statement": "p.inverse(L) times p equals 1 modulo x^L whenever the constant term is invertible.", "quantifier": "all commutative rings, all L, all series", "why_tests_cant": "all lengths", "anchors": ["include/altruct/structure/math/polynom.h:inverse"]}
{"id": "C39", "title": "matrix multiplication, power and transpose obey matrix algebra", "statement": "operator* is the row-by-column product, associative with identity(n); pow is iterated product; transpose reverses products.", "quantifier": "all semirings/rings and all dimensions", "why_tests_cant": "all dimensions", "anchors": ["include/altruct/structure/math/matrix.h"]}
{"id": "C40", "title": "Gaussian elimination gives determinant, inverse and rank", "statement": "matrix::det is the determinant, inverse is the two-sided inverse for invertible matrices, negative powers are powers of the inverse, a/b*b = a, and rank() returns n exactly for the invertible n x n matrices (for singular ones it can return less than the rank, see the refutation).", "quantifier": "all fields and all matrices", "why_tests_cant": "all dimensions, singular patterns", "anchors": ["include/altruct/structure/math/matrix.h:gauss"]}
{"id": "C41", "title": "fraction is the field of rationals in lowest terms", "statement": "Constructors and operators keep gcd(p,q)=1 and q>0, comparisons agree with rational order, and + - * / agree with rational arithmetic.", "quantifier": "all integers numerators and denominators", "why_tests_cant": "all pairs", "anchors": ["include/altruct/structure/math/fraction.h"]}
{"id": "C42", "title": "quadratic and complex extension rings", "statement": "quadratic<T> / complex<T> arithmetic is arithmetic in T[sqrt D]: ring laws, norm multiplicative, division inverse to multiplication when norm invertible.", "quantifier": "all commutative rings T and all D", "why_tests_cant": "all rings", "anchors": ["include/altruct/structure/math/quadratic.h", "include/altruct/structure/math/complex.h"]}
{"id": "C43", "title": "nimber arithmetic is a field of characteristic 2", "statement": "On the nimbers below 2^(2^k), + is xor, * is the nim product: associative, commutative, distributive, 1 neutral, every non-zero x has x*x.inverse() = 1, sqrt(x)^2 = x; the schoolbook and Karatsuba multiplications agree.", "quantifier": "all levels k and all nimbers", "why_tests_cant": "2^64 pairs for one word size, unbounded levels", "anchors": ["include/altruct/structure/math/nimber.h"]}
{"id": "C44", "title": "permutation conversions and group operations", "statement": "line_to_cycles / cycles_to_line / transpositions conversions are mutually inverse, the product is function composition (left factor first: the documented order is refuted), inv is the inverse, pow(T) is the T-th power for every integer T, and for T >= 1 a permutation returned by root satisfies root(T)^T = p and has the requested parity, while without a parity request a missing root means that none exists.", "quantifier": "all sizes, permutations, integer exponents", "why_tests_cant": "n! permutations for all n", "anchors": ["include/altruct/structure/math/permutation.h"]}
{"id": "C45", "title": "Binary search returns the first true index", "statement": "binary_search_pred(lo,hi,pred) terminates and for a monotone predicate returns the least index in [lo,hi) satisfying it, or hi; it evaluates the predicate only inside [lo,hi).", "quantifier": "all ranges and monotone predicates", "why_tests_cant": "all predicates", "anchors": ["include/altruct/algorithm/search/binary_search.h:binary_search_pred"]}
{"id": "C46", "title": "KMP reports exactly the occurrences", "statement": "kmp_search calls the callback once for each occurrence position of the pattern in increasing order until the callback refuses, and returns the last reported position or n; no out-of-range access.", "quantifier": "all texts, patterns, alphabets, callbacks", "why_tests_cant": "all strings", "anchors": ["include/altruct/algorithm/search/kmp_search.h:kmp_search"]}
{"id": "C47", "title": "Collection helpers: run-length, compare, take, filter", "statement": "run_length decodes back to the input with maximal runs, compare is the lexicographic order on the first max_len elements, sorted/filter/take/transform act as named.", "quantifier": "all sequences", "why_tests_cant": "all sequences", "anchors": ["include/altruct/algorithm/collections/collections.h"]}
{"id": "C48", "title": "Cumulative polynomial hash of a range equals the hash of the substring", "statement": "For moduli up to 2^30, B*BI = 1 (mod M) and nonnegative characters, cumulative_hash::get(b,e) equals the hash of the subsequence [b,e) computed from scratch, for every range and every growth history of the shared power tables; hence equal substrings have equal hashes.", "quantifier": "all sequences, ranges, moduli, bases, table states", "why_tests_cant": "all sequences and table growth histories", "anchors": ["include/altruct/algorithm/hash/polynomial_hash.h"]}
{"id": "C49", "title": "Shunting-yard preserves meaning", "statement": "For every well-formed infix expression infix_to_postfix followed by evaluate_postfix yields the value of the expression under the given precedences, associativities, parentheses and function calls with at least one argument, if no operator binds before a prefix operator that follows it.", "quantifier": "all expressions and operator tables", "why_tests_cant": "all expressions of any depth", "anchors": ["include/altruct/algorithm/parser/shunting_yard.h"]}
{"id": "C50", "title": "Buffered reader delivers the underlying byte stream unchanged", "statement": "For every buffer size, every chunking by the underlying reader and every sequence of read_char/read/skip/unread calls, the bytes delivered are exactly the consecutive bytes of the underlying stream, and for requests that fit the buffer the failure flag is set exactly when input ran out. (Larger requests may come back short and raise the flag; skip only skips what is buffered.)", "quantifier": "all streams, capacities, chunkings, call histories", "why_tests_cant": "all histories and chunk schedules", "anchors": ["include/altruct/io/reader.h:buffered_reader", "include/altruct/io/fast_io.h:fast_read"]}
{"id": "C51", "title": "Buffered writer emits the written bytes in order exactly once", "statement": "For every capacity >= 1 and every sequence of write_char/write/flush calls, the bytes received by the underlying writer after the final flush are the concatenation of the written bytes.", "quantifier": "all capacities and call histories", "why_tests_cant": "all histories", "anchors": ["include/altruct/io/writer.h:buffered_writer", "include/altruct/io/fast_io.h:fast_write"]}
{"id": "C52", "title": "Integer printing and parsing round-trip", "statement": "Reading back what write_integral_number produced (followed by a non-digit) yields the same integer, for every representable value that the code can negate; padding with len <= 50 only adds leading zeros.", "quantifier": "all machine integers, all pad lengths up to the scratch buffer", "why_tests_cant": "2^64 values", "anchors": ["include/altruct/io/writer.h:write_integral_number", "include/altruct/io/reader.h:read_integral_number"]}
{"id": "C53", "title": "parallel_execute runs every job exactly once under every schedule", "statement": "Whatever the interleaving of the worker threads, every job handed out by the provider is executed once and its result collected once, mutexes never deadlock, all threads terminate, and add_result_collector ends with the sum over all jobs; range_job_provider partitions [begin,end).", "quantifier": "all numbers of threads, all job lists, all schedules", "why_tests_cant": "interleavings are exponential", "anchors": ["include/altruct/concurrency/concurrency.h:parallel_execute"]}
{"id": "C54", "title": "Bitwise convolutions", "statement": "or_convolution, and_convolution, xor_convolution, max_convolution return r[k] = sum of f[i]*g[j] over i op j = k, for op = or, and, xor, max; the Walsh-Hadamard transform applied twice multiplies by n.", "quantifier": "all commutative rings, all sizes 2^k (any n for max), all vectors", "why_tests_cant": "all sizes and rings", "anchors": ["include/altruct/algorithm/math/convolutions.h"]}
{"id": "C55", "title": "Subset sum transform, inversion and subset convolution", "statement": "fast_subset_sum gives r[k] = sum of f over submasks of k, the inverse undoes it, and fast_subset_convolution equals the sum over submask splits.", "quantifier": "all commutative rings, all log_n, all vectors", "why_tests_cant": "all sizes", "anchors": ["include/altruct/algorithm/math/convolutions.h:fast_subset_sum"]}
{"id": "C56", "title": "sum_ratio equals the sum of floors", "statement": "sum_ratio(a,b,q,n) terminates and equals Sum[floor((a*k+b)/q), k=0..n-1].", "quantifier": "all integers a, b, all q != 0, all n", "why_tests_cant": "unbounded; Euclid-like recursion", "anchors": ["include/altruct/algorithm/math/sums.h:sum_ratio"]}
{"id": "C57", "title": "sum_sqrt style summation equals the direct sum", "statement": "sum_sqrt(f,n) = Sum f(n/k), sum_sqrt2m = Sum f(k)*g(n/k), sum_sqrt2 = Sum f(k,n/k) over k=1..n.", "quantifier": "all functions into any commutative ring, all n", "why_tests_cant": "all functions, all n", "anchors": ["include/altruct/algorithm/math/sums.h:sum_sqrt", "include/altruct/algorithm/math/sums.h:sum_sqrt2m"]}
{"id": "C58", "title": "prime counting by sieving on quotients", "statement": "prime_pi(n), prime_sum(n), prime_pi1(n), prime_pi3(n) give the number and the sum of the primes <= n and the numbers of those of the form 4k+1 and 4k+3 (0 for n < 1); the maps of prime_power_sum_sqrt and prime_pi13_sqrt hold the same at n/k for every k in 1..n, the former for every power z and over every ring.", "quantifier": "all n >= 1 for the maps, all integers n for the totals", "why_tests_cant": "all n", "anchors": ["include/altruct/algorithm/math/prime_counting.h"]}
{"id": "C59", "title": "Range helpers", "statement": "range, powers, factorials, inv_factorials, inverses, invert_field, negate, alternate, accumulate, differentiate fill position i as documented; differentiate undoes accumulate.", "quantifier": "all lengths and all (fields) rings", "why_tests_cant": "all lengths", "anchors": ["include/altruct/algorithm/math/ranges.h"]}
{"id": "C60", "title": "Linear recurrence evaluation", "statement": "linear_recurrence(coeff, init, n) is the n-th term of the recurrence for every n >= 0; fibonacci and lucas are instances.", "quantifier": "all commutative rings, coefficient vectors, n", "why_tests_cant": "unbounded n and order", "anchors": ["include/altruct/algorithm/math/recurrence.h:linear_recurrence"]}
{"id": "C61", "title": "Stirling tables", "statement": "stirling_s1_all / stirling_s2_all entries satisfy the defining recurrences: falling factorial coefficients and number of set partitions.", "quantifier": "all table sizes", "why_tests_cant": "all sizes", "anchors": ["include/altruct/algorithm/math/counting.h"]}
{"id": "C62", "title": "Random range mapping stays in range and is unbiased on accepted values", "statement": "integer_to_range(val,min,max) lies in [min,max]; biggest_multiple(w) is the largest multiple of w not exceeding 2^L; values below it hit each residue equally often; uniform_next always returns a value in [min,max] for any generator.", "quantifier": "all words, all widths, all generators", "why_tests_cant": "2^64 values and arbitrary generators", "anchors": ["include/altruct/algorithm/random/random.h"]}
{"id": "C63", "title": "Continued fractions and convergents", "statement": "convergents(continued_fraction(p,q)) ends with p/q in lowest terms, consecutive convergents have determinant +-1.", "quantifier": "all p >= 0, q > 0", "why_tests_cant": "unbounded", "anchors": ["include/altruct/algorithm/math/convergents.h:continued_fraction", "include/altruct/algorithm/math/convergents.h:convergents"]}
{"id": "C64", "title": "Farey neighbours", "statement": "farey_neighbour(n, f_prev, f) is the next element of the Farey sequence of order n.", "quantifier": "all orders n and adjacent pairs", "why_tests_cant": "unbounded", "anchors": ["include/altruct/algorithm/math/fractions.h:farey_neighbour"]}
{"id": "C65", "title": "Repeating decimal expansion", "statement": "repeating_decimal(b,p,q) terminates; the returned digits with the stated period are the base-b expansion of p/q; rational_digits returns the digits at the stated positions.", "quantifier": "all b >= 2, 0 < p < q", "why_tests_cant": "unbounded", "anchors": ["include/altruct/algorithm/math/fractions.h:repeating_decimal", "include/altruct/algorithm/math/fractions.h:rational_digit"]}
{"id": "C66", "title": "Enumeration of partitions and permutations", "statement": "next_partition steps to the lexicographically next smaller partition of the same sum; nth_permutation(sorted, k) is the k-th permutation.", "quantifier": "all lengths and values", "why_tests_cant": "all sequences", "anchors": ["include/altruct/algorithm/math/combinatorics.h"]}
{"id": "C67", "title": "Prime exponent in factorials and binomials", "statement": "factorial_prime_exponent(n,p) is the exponent of p in n!, binomial_prime_exponent and multinomial_prime_exponent accordingly.", "quantifier": "all n and primes p", "why_tests_cant": "unbounded", "anchors": ["include/altruct/algorithm/math/comb_primes.h"]}
{"id": "C68", "title": "reduce and mex", "statement": "reduce_min/max/sum/product fold as named; reduce_mex of a sorted container is the least value >= id not contained.", "quantifier": "all containers", "why_tests_cant": "all containers", "anchors": ["include/altruct/algorithm/math/reduce.h"]}
{"id": "C69", "title": "with_infinity follows its documented table and moebius_tr composes", "statement": "The arithmetic of with_infinity on z, 0, inf follows the table in the header, up to which number an infinite value carries; moebius_tr applies its formula at every point including infinity and its pole; the product is composition of the maps, inverse undoes them, normalize keeps them (finite coefficients, determinant not 0).", "quantifier": "all fields with a conjugation, all values, all transformations", "why_tests_cant": "all fields and values", "anchors": ["include/altruct/structure/math/with_infinity.h", "include/altruct/structure/math/moebius_tr.h"]}
{"id": "C70", "title": "graph editing operations", "statement": "delete_edge removes exactly the edges u->v, delete_node relabels the last node and removes all incident edges, contract merges nodes, deduplicate leaves one edge per target.", "quantifier": "all graphs and nodes", "why_tests_cant": "all graphs", "anchors": ["include/altruct/structure/graph/graph.h"]}
{"id": "C71", "title": "Single-bit editing and sign-magnitude conversion", "statement": "make_bit, make_ones, get_bit, set_bit, flip_bit, clear_bit, erase_bit and mix_bits change exactly the named bits and leave every other bit alone; sign_mag converts two's complement to sign and magnitude and back for every value but the most negative one.", "quantifier": "all word widths, all words, all in-range positions", "why_tests_cant": "2^64 words times 64 positions", "anchors": ["include/altruct/algorithm/math/bits.h"]}
{"id": "C72", "title": "Range sums and power sums", "statement": "sum(f,a,b) adds f over every integer of [a,b] and is zero on an empty range; sum_pow(p,n) is the exact sum 1^p+..+n^p for p = 0..3.", "quantifier": "all functions, all ranges, all n >= 0", "why_tests_cant": "unbounded ranges", "anchors": ["include/altruct/algorithm/math/sums.h"]}
{"id": "C73", "title": "Modular power", "statement": "modulo_power(x,y,M) is x^y mod M and modT(v,M) is v mod M in [0,M), for signed x and v.", "quantifier": "all x, all y >= 0, all M >= 1", "why_tests_cant": "unbounded", "anchors": ["include/altruct/algorithm/math/modulos.h"]}
{"id": "C74", "title": "Multinomial coefficients are exact", "statement": "multinomial(k1,..,km) over exact integers is (k1+..+km)!/(k1!..km!), and the division it performs is exact.", "quantifier": "all lists of nonnegative k", "why_tests_cant": "unbounded lists", "anchors": ["include/altruct/algorithm/math/comb_primes.h"]}
{"id": "C75", "title": "galois_field_2 words are independent copies of GF(2)", "statement": "On W-bit words, + and - are GF(2) addition and * GF(2) multiplication in every bit, identityOf is all ones, the laws of a commutative ring of characteristic 2 hold, and (x/y)*y = x*y for every y (so division undoes multiplication wherever y has a one bit).", "quantifier": "all word widths and all words", "why_tests_cant": "2^64 operands for one width", "anchors": ["include/altruct/structure/math/galois_field_2.h"]}
{"id": "C76", "title": "Multiplicative order", "statement": "multiplicative_order(a, m, phi, factors), with a^phi = 1 (for instance phi = phi(m) and a coprime to m) and the distinct prime factors of phi, is the least k > 0 with a^k = 1 modulo m; the generic version does the same in any monoid.", "quantifier": "all moduli, all a, all valid exponents and factor lists, all monoids", "why_tests_cant": "unbounded integers", "anchors": ["include/altruct/algorithm/math/modulos.h"]}
{"id": "C77", "title": "Primitive roots", "statement": "primitive_root(m, phi(m), factors) is the least g whose powers are all the residues coprime to m when m is 2, 4, p^k or 2p^k, and 0 for every other m >= 2, where no such g exists; primitive_root_of_unity(m, lambda, factors) is the least element of order lambda(m) and always exists.", "quantifier": "all m >= 2", "why_tests_cant": "unbounded moduli; the classification is a theorem about all of them", "anchors": ["include/altruct/algorithm/math/modulos.h"]}
{"id": "C78", "title": "k-th roots modulo m", "statement": "kth_roots_of_unity(m, k, lambda, g) and kth_roots(m, k, phi, g, l) contain, without repetition, exactly the x with x^k = 1 (respectively x^k = g^l) modulo m when g is a primitive root modulo m; there are gcd(k, phi) of them, or none. For any g of that order every element returned is such a root.", "quantifier": "all m, all k >= 1, all l >= 0, all g", "why_tests_cant": "unbounded moduli and exponents", "anchors": ["include/altruct/algorithm/math/modulos.h"]}
{"id": "C79", "title": "Discrete logarithms", "statement": "discrete_log_brute_force, discrete_log_baby_giant, discrete_log_shanks and discrete_log_oddp return the least x >= 0 with a^x = b modulo m, or -1 exactly when there is none; discrete_log returns the least x and the order of a whenever b is a power of a. The _g versions do the same in any monoid.", "quantifier": "all moduli, bases and targets, all monoids", "why_tests_cant": "unbounded groups", "anchors": ["include/altruct/algorithm/math/modulos.h"]}
{"id": "C80", "title": "Discrete logarithms modulo a prime power", "statement": "When b is a power of a, discrete_log_p2(a, b, s) and discrete_log_pp(a, b, p, s) return an x >= 0 with a^x = b modulo p^s (for p = 2 the least one).", "quantifier": "all primes p, exponents s, units a and powers b of a", "why_tests_cant": "unbounded prime powers", "anchors": ["include/altruct/algorithm/math/modulos.h"]}
{"id": "C81", "title": "Fast Fourier transforms", "statement": "For a size that is a power of two and a root w with w^(size/2) = -1, fft leaves in place, and fft_rec writes to the destination, the elements sum_j a_j w^(j k); another size leaves the data of fft unchanged; transforming again with the inverse root multiplies every element by the size.", "quantifier": "all commutative rings, all powers of two, all arrays", "why_tests_cant": "unbounded sizes, all rings and root representations", "anchors": ["include/altruct/algorithm/math/fft.h"]}
{"id": "C82", "title": "Convolutions by fast transforms", "statement": "fft_cyclic_convolution stores in dataR the cyclic convolution of its arrays; convolution(u, v) returns the |u|+|v|-1 coefficients of the product; cyclic_convolution(u, v) returns sum_i u_i v_((k-i) mod |v|), provided the order of the root reaches ceil(|u|/|v|)|v|+|u|-1. A root_wrapper over a table of all roots may be passed as the root.", "quantifier": "all commutative rings with a suitable root and inverses of powers of two, all nonempty sequences", "why_tests_cant": "unbounded lengths", "anchors": ["include/altruct/algorithm/math/fft.h", "include/altruct/structure/math/root_wrapper.h"]}
{"id": "C83", "title": "Primality test by Miller and Rabin", "statement": "miller_rabin never rejects a prime, whatever non-negative bases are given, so an answer false is always right. It accepts exactly 2, 3 and the odd numbers that are strong probable primes for every base listed before the terminating 0 and below n. With its own choice of bases it is exact below 2047.", "quantifier": "all n >= 0, all zero-terminated lists of bases", "why_tests_cant": "acceptance of every prime is a theorem about all primes; no finite set of tests shows it", "anchors": ["include/altruct/algorithm/math/factorization.h"]}
{"id": "C84", "title": "Pollard's rho and factor_integer", "statement": "pollard_rho and pollard_rho_repeated return a divisor of n greater than 1 (n itself on failure). factor_integer(n) terminates and returns pairs (p, e) whose product of powers is n; every p passes miller_rabin and occurs once with its whole multiplicity, or is a composite number that could not be split, with e = 1. If all p are prime it is the prime factorisation; below 2047 it always is.", "quantifier": "all n >= 1, all iteration limits", "why_tests_cant": "unbounded stack of cofactors and unbounded n", "anchors": ["include/altruct/algorithm/math/factorization.h"]}
{"id": "C85", "title": "Factoring by trial division", "statement": "factor_integer_slow(n) returns the prime factorisation of n by increasing primes; from_factorization multiplies it back; factor_out(n, p, e) returns n without its factors p and adds their number to e, for n not zero.", "quantifier": "all n >= 1, all factor lists, all nonzero n and p >= 2", "why_tests_cant": "all integers", "anchors": ["include/altruct/algorithm/math/factorization.h"]}
{"id": "C86", "title": "Numbers with given prime factors", "statement": "from_primes(vp, n_max) calls the visitor exactly once for every product of powers of the listed primes that does not exceed n_max, with the exponents that occur; no number is visited twice.", "quantifier": "all lists of distinct primes, all n_max >= 1", "why_tests_cant": "exactly-once enumeration over unbounded lists", "anchors": ["include/altruct/algorithm/math/factorization.h"]}
{"id": "C87", "title": "Joint reduction of a fraction of products", "statement": "fraction_reduce preserves the quotient of the two products, replaces every number by a divisor of it, and leaves every denominator coprime to every numerator; when the quotient is an integer all denominators become 1.", "quantifier": "all lists of numerators and positive denominators, all correct gcd functions", "why_tests_cant": "unbounded lists", "anchors": ["include/altruct/algorithm/math/factorization.h"]}
{"id": "C88", "title": "Dirichlet convolution and division", "statement": "dirichlet_convolution(h, f, g, n) leaves in h[i], for 1 <= i < n, the sum of f(d) g(i/d) over the divisors d of i, and 0 in h[0]. dirichlet_division leaves the only function h with h * g = f below n whenever g(1) is invertible; dirichlet_inverse the one with f * h = e; moebius_transform the sum of f(d) mu(i/d). No other entry changes. Convolution is commutative and associative with unit e.", "quantifier": "all commutative rings, all functions, all n up to the size of the table", "why_tests_cant": "unbounded tables, all functions and rings", "anchors": ["include/altruct/algorithm/math/divisor_sums.h"]}
{"id": "C89", "title": "Multiplicative convolution, division and divisor sums", "statement": "When the result is multiplicative, dirichlet_convolution_multiplicative, dirichlet_division_multiplicative, dirichlet_inverse_multiplicative and moebius_transform_multiplicative, which compute only the values at prime powers and multiply them up, leave the same values as the definitions; division needs g(1) = 1. Convolution, quotient and inverse of multiplicative functions are multiplicative. divisor_sigma(ds, k, n) leaves the sums of the k-th powers of the divisors.", "quantifier": "all commutative rings, all multiplicative functions, all n up to 2^32, all exponents k >= 0", "why_tests_cant": "unbounded tables, all multiplicative functions", "anchors": ["include/altruct/algorithm/math/divisor_sums.h"]}
{"id": "C90", "title": "Completely multiplicative convolution and division", "statement": "When the result is completely multiplicative, dirichlet_convolution_completely_multiplicative, dirichlet_division_completely_multiplicative, dirichlet_inverse_completely_multiplicative and moebius_transform_completely_multiplicative leave the convolution or quotient in the table, given any table of prime factors; division needs g(1) = 1. calc_completely_multiplicative completes a table that is right at 1 and at the primes.", "quantifier": "all commutative rings, all functions with a completely multiplicative result, all prime factor tables", "why_tests_cant": "unbounded tables", "anchors": ["include/altruct/algorithm/math/divisor_sums.h"]}
{"id": "C91", "title": "Sieving summatory functions", "statement": "sieve_m(M, t, p, n) leaves the only M with t(i) = p(1) M(i/1) + ... + p(i) M(i/i) for 1 <= i < n when p(1) is invertible, sieve_m(M, t, n) the one for p = 1, and sieve_m_multiplicative and sieve_m_multiplicative_inv do the same when p and the differences of M are multiplicative and M[0] is zero beforehand. For these i the sum of a Dirichlet convolution p * m up to i equals that combination of sums of m.", "quantifier": "all commutative rings, all t and p, all n from 2 up to the size of the table", "why_tests_cant": "unbounded tables, all functions", "anchors": ["include/altruct/algorithm/math/divisor_sums.h"]}
{"id": "C92", "title": "Counting squarefree numbers", "statement": "sieve_sqfree_count leaves in entry i, for 0 <= i < n, the number of squarefree integers from 1 to i.", "quantifier": "all n from 1 up to the size of the table, all prime tables reaching sqrt(n)", "why_tests_cant": "unbounded tables", "anchors": ["include/altruct/algorithm/math/divisor_sums.h"]}
{"id": "C93", "title": "Memoised summatory functions", "statement": "sum_m(t, s, n, tbl) returns M(n) for the M with t(i) = p(1) M(i/1) + ... + p(i) M(i/i), where s is the prefix sum of p and p(1) divides exactly; sum_m(t, n, tbl) does so for p = 1. Given a table whose entries are all right, the table afterwards is right, keeps what it had, holds n, and holds every quotient of n if n was missing. std::map and sqrt_map both serve as the table.", "quantifier": "all commutative rings, all t, s, n >= 0, all tables with right entries", "why_tests_cant": "recursion of unbounded depth over a mutable table in any prior state", "anchors": ["include/altruct/algorithm/math/divisor_sums.h", "include/altruct/structure/container/sqrt_map.h"]}
{"id": "C94", "title": "Mertens functions", "statement": "mertens(n, tbl), mertens_odd and mertens_even return the sum of the Moebius function over all, the odd, and the even numbers from 1 to n, for any table with right entries; mertens_even only for n below 2^31. sieve_mertens, sieve_mertens_odd, sieve_mertens_even and sieve_mertens_even_odd fill the entries 1 <= i < n of their tables with these sums.", "quantifier": "all rings, all n, all tables", "why_tests_cant": "unbounded n", "anchors": ["include/altruct/algorithm/math/mertens.h"]}
{"id": "C95", "title": "Counting squarefree numbers up to n", "statement": "sqfree_count(n, tbl) returns the number of squarefree integers from 1 to n, for any table with right entries, and leaves the table right.", "quantifier": "all n >= 0, all tables with right entries", "why_tests_cant": "unbounded n, recursion over a mutable table", "anchors": ["include/altruct/algorithm/math/divisor_sums.h"]}
{"id": "C96", "title": "Sums of Euler's phi and maps of quotients", "statement": "sum_phi(n) returns a map whose entry at every n/k, 1 <= k <= n, is the sum of Euler's phi from 1 to n/k, with or without a table of totients. make_sqrt_map(f, n) returns a map with f(k) at every k up to sqrt(n) and at every quotient n/j, and zero at 0. Both need n >= 1.", "quantifier": "all n >= 1, all functions f, all rings that can halve", "why_tests_cant": "unbounded n", "anchors": ["include/altruct/algorithm/math/divisor_sums.h"]}
{"id": "C97", "title": "Sums over coprime numbers", "statement": "coprime_sum(primes, n, sf, m) returns the sum of f(k m) over the k from 1 to n that are coprime to the product of the primes, where sf(n, m) is the sum of f(k m) over all k from 1 to n.", "quantifier": "all lists of distinct primes, all n, m, f", "why_tests_cant": "inclusion-exclusion over unbounded lists", "anchors": ["include/altruct/algorithm/math/divisor_sums.h"]}
{"id": "C98", "title": "Sums of multiplicative functions from sums over primes", "statement": "sum_multiplicative_34(s1, f, n, pa, m) returns the sum of a multiplicative function g from 1 to n, where f(g(p^(e-1)), p, e) = g(p^e), s1 gives the sums of g over the primes up to every quotient of n, and pa lists all primes below some L with n < L^2. The version that takes s1 as a function does the same.", "quantifier": "all commutative rings, all multiplicative functions, all n >= 1, all prime tables reaching sqrt(n)", "why_tests_cant": "recursion of unbounded depth over all multiplicative functions", "anchors": ["include/altruct/algorithm/math/divisor_sums.h"]}
{"id": "C99", "title": "Traversing rough numbers", "statement": "traverse_rough_numbers(f, n, k, pa, psz, visitor, m, f_m) calls the visitor exactly once for each number x from 2 to n whose least prime factor is p_k, with m x and f_m g(x), provided that the table has all primes up to n / p_k. calc_F_k turns a lookup of the sums of g over numbers without prime factors up to p into the sum over numbers without prime factors below p.", "quantifier": "all visitors with state, all n, k, m, all multiplicative functions, all prime tables reaching n / p_k", "why_tests_cant": "unbounded recursion with arbitrary callbacks", "anchors": ["include/altruct/algorithm/math/divisor_sums.h"]}
{"id": "C100", "title": "Summing a multiplicative function in O(n^(2/3))", "statement": "sum_multiplicative(s1, f, n, pa, psz) returns a map whose entry at every k up to sqrt(n) and at every quotient n/j is the sum of the multiplicative function from 1 to that point, for n >= 8, when pa lists all primes below some L with n < L^2, has a prime above the cube root of n and at most sqrt(n) + 1, and no prime beyond n divided by its cube root. At n = 1 it returns 1 if the table is not empty. Outside of this it may read before the table.", "quantifier": "all commutative rings, all multiplicative functions, all such n and prime tables", "why_tests_cant": "unbounded n; the result goes through four phases, a Fenwick tree and two swapped maps", "anchors": ["include/altruct/algorithm/math/divisor_sums.h", "include/altruct/structure/container/sqrt_map.h", "include/altruct/structure/math/fenwick_tree.h"]}
{"id": "C101", "title": "A link-cut tree answers like the forest it stands for", "statement": "For every history of add, link, cut, find_root, find_parent, find_lca, depth, get and assignments through the reference that get returns, in which only roots are linked and not to their own descendants, link_cut_tree gives the answers of the rooted forest that these changes build: indices count from 1, 0 means none, the value read has the node's own part and the aggregate of the values from the root to the node in this order. Linking a node that has a parent is not refused and does not link it to the new parent.", "quantifier": "all histories of any length, all associative aggregates, commutative or not", "why_tests_cant": "each query restructures the splay trees that later queries see", "anchors": ["include/altruct/structure/container/link_cut_tree.h"]}
{"id": "C102", "title": "Searching a root path by depth in a link-cut tree", "statement": "traverse(node, f), after any history, returns the node at depth k on the path from the root to node when f's sign tells whether the depth it is given is less than, equal to or greater than k, and 0 when there is no such node; later answers are those of the same forest.", "quantifier": "all histories, nodes, depths k and callbacks that steer towards k", "why_tests_cant": "the depth is kept up incrementally along a path of a splay tree of arbitrary shape", "anchors": ["include/altruct/structure/container/link_cut_tree.h"]}
{"id": "C103", "title": "Segmented primality sieve", "statement": "segmented_q(q, b, e, p, m), given the first m primes with p[m-1] >= sqrt(e-1), sets q[x-b] to whether x is prime for every x in [b, e) and changes nothing else, provided e >= 2 when b < 2. A range that starts at 0 or 1 and ends before 2 is written past its end.", "quantifier": "all ranges, prime tables that reach sqrt(e-1) and previous contents of the array", "why_tests_cant": "the range may start anywhere; each prime is entered at its own first multiple", "anchors": ["include/altruct/algorithm/math/primes.h", "src/algorithm/math/primes.cpp"]}
{"id": "C104", "title": "Segmented totient and Moebius sieves", "statement": "segmented_phi and segmented_mu, given the first m primes with p[m-1] >= sqrt(e-1), store Euler's totient and the Moebius function of every x in [b, e) at x-b and change nothing else in the result array. The empty range at 0 is written.", "quantifier": "all ranges with e >= 1 when b = 0, prime tables that reach sqrt(e-1) and previous contents", "why_tests_cant": "at most one prime factor of x is above the table, and it must be recovered from what is left of x", "anchors": ["include/altruct/algorithm/math/primes.h", "src/algorithm/math/primes.cpp"]}
{"id": "C105", "title": "Pythagorean triples up to a limit and with a fixed leg", "statement": "pythagorean_triples(c_max, only_primitive) visits every (a, b, c) with 0 < a < b < c <= c_max and a^2 + b^2 = c^2 exactly once and nothing else; with only_primitive just those without a common factor. pythagorean_triples_fixed_leg, given the factorisation of the leg, visits exactly once each (leg, b, c) with b > 0 and leg^2 + b^2 = c^2.", "quantifier": "all limits, all legs >= 1 with any factorisation", "why_tests_cant": "completeness and absence of repetitions rest on the classification of all solutions", "anchors": ["include/altruct/algorithm/math/triples.h"]}
{"id": "C106", "title": "Triangles with an angle of 60 degrees", "statement": "eisenstein_triples60(c_max, only_primitive) visits every (a, b, c) with 0 < a <= b <= c <= c_max and a^2 - ac + c^2 = b^2 exactly once and nothing else (primitive ones only if asked). Contrary to the documentation the order is not strict: the equilateral triangles are visited, and they are the only exception.", "quantifier": "all limits", "why_tests_cant": "completeness and absence of repetitions rest on the classification of all solutions, with two cases modulo 3", "anchors": ["include/altruct/algorithm/math/triples.h"]}
{"id": "C107", "title": "Triangles with an angle of 120 degrees", "statement": "eisenstein_triples120(c_max, only_primitive) visits every (a, b, c) with 0 < a < b < c <= c_max and a^2 + ab + b^2 = c^2 exactly once and nothing else (primitive ones only if asked).", "quantifier": "all limits", "why_tests_cant": "completeness and absence of repetitions rest on the classification of all solutions", "anchors": ["include/altruct/algorithm/math/triples.h"]}
{"id": "C108", "title": "Almost-Pythagorean triples", "statement": "almost_pythagorean_triples(c_max) visits every triple of positive numbers with a^2 + b^2 = c^2 + 1 and c <= c_max exactly once, (a, b, c) and (b, a, c) separately, and nothing else.", "quantifier": "all limits", "why_tests_cant": "the solutions are parametrised by coprime pairs and modular inverses of both", "anchors": ["include/altruct/algorithm/math/triples.h", "include/altruct/algorithm/math/modulo.h"]}
{"id": "C109", "title": "The tree of solutions of a^2 + b^2 + k = c^2", "statement": "For every k >= 0 and n, generate_pythagorean_triples(n, pythagorean_triples_generators(k)) ends and holds every primitive (a, b, c) with 0 <= a <= b, 0 < c <= n and a^2 + b^2 + k = c^2 (with a > 0 if k <= 1) exactly once. All its elements are such triples except that generators beyond n are kept too. No generator is obtained from a solution by one of the three matrices.", "quantifier": "all k >= 0 and n", "why_tests_cant": "the walk grows the list it iterates over; the generators must reach every solution of an unbounded tree and reach it once", "anchors": ["include/altruct/algorithm/math/triples.h"]}
{"id": "C110", "title": "Continued fraction expansion of quadratic irrationals", "statement": "For D > 0 not a square, Q0 != 0 and P0^2 = D (mod Q0), pell_PQa ends and its vectors are the first terms of the continued fraction of (P0 + sqrt(D)) / Q0: complete quotients, partial quotients, coprime convergents A/B, and G = Q0 A - P0 B with G_i^2 - D B_i^2 = (-1)^(i+1) Q_(i+1) Q0. The result is the length of the shortest period, and each further call on the same vectors adds exactly one period.", "quantifier": "all non-square D, all P0 and Q0 of either sign", "why_tests_cant": "the length of the pre-period and of the period is unbounded; termination needs that every expansion becomes reduced", "anchors": ["include/altruct/algorithm/math/pell.h"]}
{"id": "C111", "title": "Pell's equation x^2 - D y^2 = +/-1", "statement": "pell1(D, N, x0, y0) gives the smallest positive solution; the positive solutions are exactly its powers (odd powers for N = -1). It returns 0 exactly when N = -1 and there is no solution. The listing overload returns, in increasing order, exactly the positive solutions within x_max, y_max and count.", "quantifier": "all non-square D, N = 1 and -1, all limits of which one is positive", "why_tests_cant": "minimality and completeness speak about all pairs of integers; solutions have a size exponential in the period", "anchors": ["include/altruct/algorithm/math/pell.h", "include/altruct/structure/math/quadratic.h"]}
{"id": "C112", "title": "Pell's equation with a small right hand side", "statement": "For 0 < N^2 < D, pellS gives distinct positive solutions of x^2 - D y^2 = N, and every positive solution is in exactly one way one of them times a power of the smallest solution of x^2 - D y^2 = 1.", "quantifier": "all non-square D and N with 0 < N^2 < D", "why_tests_cant": "completeness needs that every small value of the form is taken at a convergent", "anchors": ["include/altruct/algorithm/math/pell.h"]}
{"id": "C113", "title": "Generalised Pell equation: soundness", "statement": "For D > 0 not a square and N != 0 with its factorisation, pell_mz, pell and the listing pell give only solutions of x^2 - D y^2 = N (for the listing: non-negative ones within the limits). pell does not give one solution of every class, and the listing does not give all solutions.", "quantifier": "all non-square D, all N != 0, all residues and limits", "why_tests_cant": "every solution is read off at some place of an unbounded expansion", "anchors": ["include/altruct/algorithm/math/pell.h"]}
{"id": "C114", "title": "xorshift64* loses no information", "statement": "A draw of xorshift_64star performs the shifts 12, 25, 27 and the multiplication of the published generator on 64-bit words; different states give different results and different next states; from every state the generator comes back to it; a non-zero state never leads to zero and never draws zero.", "quantifier": "all 64-bit states", "why_tests_cant": "2^64 states", "anchors": ["include/altruct/algorithm/random/xorshift.h"]}
{"id": "C115", "title": "xorshift1024* loses no information", "statement": "A draw of xorshift_1024star from sixteen words and a position below 16 succeeds, reads and writes only inside the array, and is the published step; different states give different next states; every state is returned to; a state with a non-zero word keeps one; seeding by a non-zero number gives sixteen non-zero words, the first draws of xorshift_64star.", "quantifier": "all states of sixteen 64-bit words with any position; all seeds", "why_tests_cant": "2^1028 states", "anchors": ["include/altruct/algorithm/random/xorshift.h"]}
{"id": "C116", "title": "mtrand is MT19937", "statement": "Seeded by any number or any non-empty array, mtrand::randInt() gives for ever the tempered terms of the MT19937 recurrence from the reference initial words; randInt(n) gives the first draw that is at most n when cut to the binary digits of n, and goes on after it; load after save restores the generator at any moment; the state never becomes zero and no 624 draws in a row are zero; tempering is one-to-one. Seeding by an empty array reads outside of it.", "quantifier": "all seeds, all arrays, all numbers of draws, all bounds", "why_tests_cant": "the stream is unbounded and the state has 19937 bits", "anchors": ["include/altruct/algorithm/random/mersenne_twister.h"]}
{"id": "C117", "title": "cornacchia solves x^2 + d y^2 = p", "statement": "For every d >= 1 and every prime p, if x^2 + d y^2 = p has an integer solution, cornacchia(d, p) returns one, with x, y >= 0. For every d other than 0 it ends without a division by 0.", "quantifier": "all primes and all d", "why_tests_cant": "the solutions have to be found for every prime; the search has no bound on p", "anchors": ["include/altruct/algorithm/math/squares_r.h"]}
{"id": "C118", "title": "Primes as sums of two squares", "statement": "squares_r_prime(p) gives 1 <= c <= d with c^2 + d^2 = p for p = 2 and every prime 1 modulo 4. squares_r_prime_table(n) has as keys exactly the numbers up to n that are sums of two positive squares, each with such a sum.", "quantifier": "all such primes; all n", "why_tests_cant": "infinitely many primes", "anchors": ["include/altruct/algorithm/math/squares_r.h"]}
{"id": "C119", "title": "squares_r_list gives every representation once", "statement": "From the factorization of n, squares_r_list returns in increasing order, and each once, exactly the pairs with a^2 + b^2 = n: with unique_only those with 0 <= a <= b, otherwise all with all signs and orders; with max_b other than 0, only those whose parts are at most max_b. This holds for any correct table of primes given, and the table it leaves is correct.", "quantifier": "all factorizations, both modes, all bounds, all tables", "why_tests_cant": "the completeness is a statement about all pairs of integers", "anchors": ["include/altruct/algorithm/math/squares_r.h"]}
{"id": "C120", "title": "squares_r counts the representations", "statement": "From the factorization of n, squares_r is the number of representations of n as a sum of two squares, with unique_only up to sign and order.", "quantifier": "all factorizations", "why_tests_cant": "the closed formula against the enumeration for every n", "anchors": ["include/altruct/algorithm/math/squares_r.h"]}
{"id": "C121", "title": "Two-prime FFT multiplication of polynomials over modulo<I> is exact", "statement": "For every modulus M from 1 to 2^32, polynom_mul over modulo<I> through the FFT (two transform primes 3221225473 and 3489660929, coefficients split in 16-bit halves, 64-bit Chinese remaindering) writes to every position k <= lr the coefficient sum of p1[i]*p2[k-i] modulo M and leaves the other positions of the destination as they were, for all coefficients in [0, M) and all products with up to 2^28 coefficients.", "quantifier": "all moduli M in [1, 2^32], all coefficient lists whose product has at most 2^28 coefficients, all destinations of sufficient size", "why_tests_cant": "Tests multiply a few polynomials; exactness depends on a no-overflow bound of every half-product sum against P1*P2 and on the wrap-around branch of the remaindering for all 64-bit values.", "anchors": ["include/altruct/algorithm/math/polynom_mod.h"]}
{"id": "C122", "title": "Factorials modulo a prime power without the multiples of p", "statement": "For p >= 2, n >= 0: factorial_mod_pp_skipped_slow(n, p, e) returns (mm mod p^e, n/p) where n! = (n/p)! * p^(n/p) * mm, that is mm is the product of the numbers up to n that p does not divide. factorials_mod_pp_skipped(n, p, e) is the table of these values for 0..n. For a prime p and e >= 1, factorial_mod_pp_skipped(n, p, e, table) returns the same pair from any such table of at least p*e+1 entries made for the modulus p^E with E >= e.", "quantifier": "all n, all primes p (all p >= 2 for the slow versions), all exponents e, all tables made by the library that are long enough", "why_tests_cant": "The fast version rests on a theorem on interpolating products modulo prime powers, whose coefficients, sign correction for p = 2 and table bound must be right for every n, p and e.", "anchors": ["include/altruct/algorithm/math/comb_mod_pp.h"]}
{"id": "C123", "title": "Factorials modulo a prime power without the power of p", "statement": "For a prime p and n >= 0, n! = p^a * mm with mm not divisible by p; factorial_mod_pp_reduced_slow, factorial_mod_pp_reduced_2 (with a table of at least p^e entries) and factorial_mod_pp_reduced (with a table of at least p*e+1 entries) return (mm mod p^e, a).", "quantifier": "all n >= 0, all primes p, all exponents e >= 1, all tables made by the library that are long enough", "why_tests_cant": "The table version replaces whole blocks by a sign given by the generalised Wilson theorem; that it is right for every n cannot be seen from examples.", "anchors": ["include/altruct/algorithm/math/comb_mod_pp.h"]}
{"id": "C124", "title": "Binomial coefficients modulo a prime power", "statement": "For a prime p and 0 <= k <= n, the binomial coefficient b = n!/(k!(n-k)!) is p^a * mm with mm not divisible by p; binomial_mod_pp_reduced_slow, binomial_mod_pp_reduced_2 (table of at least p^e entries) and binomial_mod_pp_reduced (table of at least p*e+1 entries) return (mm mod p^e, a).", "quantifier": "all 0 <= k <= n, all primes p, all exponents e >= 1, all tables made by the library that are long enough", "why_tests_cant": "The sign of the fast version depends on the carries of the addition k + (n-k) in base p from digit e-1 on; tests meet only a few carry patterns.", "anchors": ["include/altruct/algorithm/math/comb_mod_pp.h"]}
{"id": "C125", "title": "Series arithmetic is arithmetic modulo x^N", "statement": "For a series s(x) + O(x^N) over any commutative ring: sums, differences, negation, scalar multiples and products (N >= 1) have the coefficients of the power series operation below x^N; with an invertible constant term s * s.inverse() is 1 and (a / s) * s is a modulo x^N; derivative and integral are those of power series, the integral when 1..N are invertible; shift(l), |l| <= N, moves the coefficients by l places; sub_mul, sub_pow and pointwise_mul give s(ax), s(x^a) (zero for a <= 0) and the coefficientwise product.", "quantifier": "all commutative rings, all N, all coefficients", "why_tests_cant": "Infinitely many rings, lengths and coefficients; multiplication switches algorithms with the length.", "anchors": ["include/altruct/structure/math/series.h", "include/altruct/structure/math/polynom.h"]}
{"id": "C126", "title": "Exponential and logarithm of a series", "statement": "If s(0) = 0 and 1..N are invertible, s.exp() is 1 + s + s^2/2! + s^3/3! + ... modulo x^N. If s(0) = 1, s.ln(c0) has constant term c0 and the exponential of the rest is s modulo x^N.", "quantifier": "all rings, N and series meeting the conditions", "why_tests_cant": "Each Newton step must double the number of correct coefficients for every series; a wrong truncation shows only at particular lengths.", "anchors": ["include/altruct/structure/math/series.h"]}
{"id": "C127", "title": "Powers of a series", "statement": "For y >= 0, s.pow(y, threshold) is the y-th power of s modulo x^N: in any ring below the threshold; from the threshold on whenever the lowest coefficient of s (that of x^l) and 1..N are invertible and, if l > 0, y < 2^31 and l*y <= N. With constant term 1 and threshold <= y < 0 it is the inverse of the power |y|.", "quantifier": "all rings, N, series, exponents and thresholds meeting the conditions", "why_tests_cant": "The exponent is unbounded and three different algorithms are selected by the coefficients and the threshold.", "anchors": ["include/altruct/structure/math/series.h"]}
{"id": "C128", "title": "Composition and reversion of series", "statement": "For N >= 1, a.composition(b) is the sum of a_k b^k, k < N, modulo x^N, for every b of the same length. If s(0) = 0 and the coefficient of x is invertible, s.reversion() is a series r with r(0) = 0 and s(r(x)) = x modulo x^N; otherwise it returns zero when s(0) is not 0 or the coefficient of x is 0.", "quantifier": "all rings, N and series", "why_tests_cant": "The baby-step giant-step grouping depends on the square root of N, the Newton step on every coefficient.", "anchors": ["include/altruct/structure/math/series.h"]}
{"id": "C129", "title": "Exponential and ordinary generating functions", "statement": "make_ordinary multiplies the coefficient of x^i by i!; make_exponential divides it by i! when (N-1)! is invertible; exp(a, N) has coefficients a^i/i! and of(f, N) has coefficients f(i).", "quantifier": "all rings, N, coefficients", "why_tests_cant": "All lengths and coefficients of any ring.", "anchors": ["include/altruct/structure/math/series.h"]}
{"id": "C130", "title": "A prime holder answers correctly after any history of calls", "statement": "For a prime_holder of size sz >= 3, every sequence of calls to primes, p(i), q(i), pf(i), pi(i), phi(i), mu(i), nu(i), mertens(i), factor_integer and divisors with arguments in range returns, for each call, the mathematically right value (prime count, i-th prime, primality flag, greatest prime factor, pi, totient, Moebius, number of prime factors, Mertens sum, sorted factorisation, sorted divisors up to the bound), whichever tables earlier calls have already filled. Sizes 1 and 2 are refuted for pf and pi.", "quantifier": "all sizes sz >= 3, all finite sequences of in-range calls in any order, all sorting functions, any over-estimate of the prime count", "why_tests_cant": "unbounded histories: each lazily filled table may be requested first, last or between the others", "anchors": ["include/altruct/structure/math/prime_holder.h:prime_holder"]}
{"id": "C131", "title": "A factorial holder's tables and binomials are right", "statement": "factorial_holder(sz), sz >= 1, over any commutative ring in which (sz-1)! can be divided by holds i!, 1/i! and 1/i for every i < sz (0 at index 0 of the inverses), and bin(n, k) is the binomial coefficient for every n < sz and every k (zero for k > n). sz = 0, and bin with n = sz, read out of bounds.", "quantifier": "all commutative rings, sizes, indices n < sz and all k", "why_tests_cant": "all rings and sizes", "anchors": ["include/altruct/structure/math/factorial_holder.h:factorial_holder"]}
{"id": "C132", "title": "Meissel's prime count is right after any history of calls", "statement": "prime_pi_deprecated(m, pi, p, pi_size) returns the number of primes up to m for every m < 2^48, in every sequence of calls sharing the two static tables, provided each call's pi holds the prime counts up to cbrt(m)+1 and m/(cbrt(m)+1) (and up to m if m < pi_size) and p holds consecutive primes from 2 with at least one above cbrt(m)+1 and above sqrt(m). prime_pi_PHI(m, n, p) is the number of integers in [1, m] divisible by none of the first n primes. The documented requirement, primes up to sqrt(m), is refuted: one more prime is read.", "quantifier": "all finite sequences of calls, all m < 2^48, all arrays that satisfy the stated requirements", "why_tests_cant": "unbounded m and histories: a value memoised by one call is reused by later calls with other arrays", "anchors": ["include/altruct/algorithm/math/prime_pi.h:prime_pi_PHI_key", "include/altruct/algorithm/math/prime_pi.h:prime_pi_PHI", "include/altruct/algorithm/math/prime_pi.h:prime_pi_P2", "include/altruct/algorithm/math/prime_pi.h:prime_pi_deprecated"]}
{"id": "C133", "title": "Bernoulli numbers are right", "statement": "bernoulli_b(n) returns b of length n+1 with Sum[C(m+1,k) b_k, {k,0,m}] = m+1 for every m <= n (the Bernoulli numbers with b_1 = +1/2), over every commutative ring in which 1, ..., n+1 have inverses; the numbers are determined by this recurrence.", "quantifier": "all commutative rings with the needed inverses, all n", "why_tests_cant": "all n and rings: the table is filled in place, one diagonal at a time", "anchors": ["include/altruct/algorithm/math/recurrence.h:bernoulli_b"]}
{"id": "C134", "title": "Sums of powers are right for every exponent and every history", "statement": "sum_pow(p, N, B) = 1^p + ... + N^p for every p and N, given the Bernoulli numbers up to p and inverses of 1..p+1. Every sequence of calls sum_pow(p, N), which share a static vector of Bernoulli numbers, returns the right sums when the integers up to p + p/2 + 1 have inverses. That the integers up to p+1 suffice is refuted: the vector grows by half its size.", "quantifier": "all exponents, bounds, commutative rings, finite sequences of calls", "why_tests_cant": "unbounded exponents and histories: the static vector depends on the calls made before", "anchors": ["include/altruct/algorithm/math/sums.h:sum_pow"]}
{"id": "C135", "title": "The discrete integral of a polynomial is right", "statement": "polynom_sum(p) returns a polynomial s with s(0) = 0, s(x+1) - s(x) = p(x+1) for every ring element x, and s(N) = p(1) + ... + p(N) for every natural N, over every commutative ring in which the integers up to the number of coefficients have inverses.", "quantifier": "all non-empty polynomials, all commutative rings with the needed inverses, all x and N", "why_tests_cant": "all degrees, coefficients and arguments", "anchors": ["include/altruct/algorithm/math/polynoms.h:polynom_sum"]}
{"id": "C136", "title": "Closed forms of figurate numbers are right for every index", "statement": "For every natural n: triangular(n) = 1+...+n, tetrahedral(n) = the sum of the first n triangular numbers, pyramidal(n) = 1^2+...+n^2, octahedral(n) = pyramidal(n) + pyramidal(n-1), dodecahedral(n) = C(3n,3), 2*icosahedral(n) = 5n^3-5n^2+2n, square and cube are the powers; over every commutative ring in which division by 2, 3 and 6 undoes multiplication.", "quantifier": "all n, all commutative rings", "why_tests_cant": "infinitely many n and rings: closed forms agree with the sums by induction only", "anchors": ["include/altruct/algorithm/math/sequences.h:triangular, tetrahedral, pyramidal, octahedral, dodecahedral, icosahedral"]}
{"id": "C137", "title": "Summatory divisor functions are right for every bound", "statement": "sum_sigma0(n), sum_sigma1(n), sum_sigma2(n) return the sum over m <= n of the number of divisors, the sum of the divisors and the sum of the squares of the divisors of m, for every n and every commutative ring.", "quantifier": "all n, all commutative rings, any value the integer square root may return", "why_tests_cant": "all n: the evaluation groups k by n/k and splits near the square root", "anchors": ["include/altruct/algorithm/math/sequences.h:sum_sigma0, sum_sigma1, sum_sigma2"]}
{"id": "C138", "title": "Sums of powers weighted by powers are right", "statement": "sum_powx(m, x, n) = Sum[k^m x^k, {k,1,n}] for every m, n and every x such that division by (x-1)^(m+1) undoes multiplication by it: every x with x-1 invertible, and over the integers every x other than 1. For x = 1 it divides by zero.", "quantifier": "all m, n, x, all commutative rings", "why_tests_cant": "all exponents and rings: the closed form is built by m differentiation steps", "anchors": ["include/altruct/algorithm/math/sums.h:sum_powx"]}
{"id": "C139", "title": "The transitive closure has exactly the reachable pairs", "statement": "For every directed graph with valid edge targets, transitive_closure(g) terminates and returns a graph with as many nodes that has the edge (u, v), once, if and only if u differs from v and v can be reached from u along edges of g; for an acyclic graph: if and only if v can be reached from u. That a node on a cycle gets an edge to itself is refuted.", "quantifier": "all finite directed multigraphs (self loops, parallel edges and cycles included)", "why_tests_cant": "all graphs: reachability ranges over walks of any length", "anchors": ["experimental/include/altruct/algorithm/graph/transitive_closure.h:transitive_closure"]}
{"id": "C140", "title": "The transitive reduction is the least graph with the same reachability", "statement": "For every acyclic directed graph with valid edge targets, transitive_reduction(g) terminates and returns a graph, with edges of g only and each once, in which the same pairs are reachable as in g; every other graph with the same reachable pairs contains all its edges. For graphs with cycles this is refuted: all edges may be lost.", "quantifier": "all finite acyclic directed multigraphs; all graphs with the same reachability", "why_tests_cant": "minimality quantifies over all graphs", "anchors": ["experimental/include/altruct/algorithm/graph/transitive_closure.h:transitive_reduction"]}
{"id": "C141", "title": "All shortest paths are found", "statement": "For every directed graph with integer weights and no negative cycle, and inf greater than the weight of every simple path (for example more than n times the heaviest edge), floyd_warshall(g, inf) returns for every pair u, v the least weight of a walk from u to v and the first node after u of a least walk, or { -1, inf } exactly if there is no walk. That inf only needs to exceed the distances is refuted.", "quantifier": "all finite weighted multigraphs without negative cycles, all pairs of nodes, all walks", "why_tests_cant": "all graphs, and minimality over infinitely many walks", "anchors": ["experimental/include/altruct/algorithm/graph/floyd_warshall.h:floyd_warshall"]}
{"id": "C142", "title": "Shortest paths from a source are found", "statement": "For every directed graph with weights that are not negative, every source and every inf greater than the weight of every simple path, dijkstra(g, src, inf) takes every node from the queue at most once and returns for every node v the least weight of a walk from src and the node before v on a least walk, or { -1, inf } exactly if v cannot be reached.", "quantifier": "all finite weighted multigraphs with weights >= 0, all sources, all walks", "why_tests_cant": "all graphs, and minimality over infinitely many walks", "anchors": ["experimental/include/altruct/algorithm/graph/dijkstra.h:dijkstra"]}
{"id": "C143", "title": "Prim's algorithm: what the result is and is not", "statement": "For weights from 0 to inf - 1, prim_spanning_tree terminates; the root has { root, 0 }; every other node reachable from the root has an edge of the graph that leads into it, and every other node { -1, inf }. That the result is a spanning tree is refuted: a node already in the tree may be given a new parent below itself, so the parents form a cycle and the root is lost.", "quantifier": "all finite weighted multigraphs with weights in range", "why_tests_cant": "all graphs; the failing inputs need four nodes in a particular order", "anchors": ["experimental/include/altruct/algorithm/graph/prim_spanning_tree.h:prim_spanning_tree"]}
{"id": "C144", "title": "Topological sorting", "statement": "For every directed acyclic graph topological_sort returns every node exactly once, the source of every edge before its target. For every graph at all it terminates and returns without repetition exactly the nodes that can be reached from a node without incoming edges; a result that holds all nodes does not show that the graph is acyclic. in_degrees counts the edges into every node.", "quantifier": "all finite directed multigraphs", "why_tests_cant": "all graphs and all orders of their edges", "anchors": ["experimental/include/altruct/algorithm/graph/topological_sort.h:in_degrees,topological_sort", "experimental/include/altruct/algorithm/graph/iterative_dfs.h:iterative_dfs"]}
{"id": "C145", "title": "The forest of a depth first search", "statement": "For every directed graph the traversal terminates and parents(g) describes a forest of edges of g: every parent has an edge to its child, following the parents from any node ends at a root, and v is a root exactly if no node with a smaller number has a walk to v.", "quantifier": "all finite directed multigraphs", "why_tests_cant": "all graphs and all orders of their edges", "anchors": ["experimental/include/altruct/algorithm/graph/iterative_dfs.h:iterative_dfs,parents"]}
{"id": "C146", "title": "Strongly connected components", "statement": "For every directed graph tarjan_scc terminates and returns every node in exactly one list; two nodes are in the same list exactly if each can be reached from the other; and no edge leads from a list to an earlier one.", "quantifier": "all finite directed multigraphs", "why_tests_cant": "all graphs and all orders of their edges", "anchors": ["experimental/include/altruct/algorithm/graph/tarjan_scc.h:tarjan_scc"]}
{"id": "C147", "title": "Clauses of two literals are decided", "statement": "For every list of clauses of two literals (-1 standing for false) and every partial initial assignment, sat2 returns true exactly if some assignment that respects the initial one satisfies all clauses. If so, it has assigned every variable that occurs, and every completion of its assignment respects the initial one and satisfies all clauses. The form without an initial assignment returns an empty vector exactly if a non-empty list of clauses is not satisfiable.", "quantifier": "all lists of clauses and all partial assignments", "why_tests_cant": "all formulas and all assignments of any number of variables", "anchors": ["experimental/include/altruct/algorithm/graph/sat2.h:sat2"]}
{"id": "C148", "title": "Products of plane-based geometric algebra", "statement": "For all values of all the blade classes over every commutative ring, *, ^, & and | are the geometric, outer, inner and regressive product of the Clifford algebra with e0 e0 = 0 and e1 e1 = e2 e2 = e3 e3 = 1, and +, unary -, scaling, reversion and duality are those of that algebra, whatever class the result is stored in; that algebra is associative and has the stated generators. The difference a - b is that of the algebra if the class of a has all the fields of the class of b (otherwise its behaviour is not defined).", "quantifier": "all pairs of values of the fifteen classes over every commutative ring", "why_tests_cant": "all field values, in all pairs of classes", "anchors": ["include/altruct/structure/math/pga.h:blade0,blade1,blade2E,blade2e,blade3,blade4,blade02E,blade02e,blade22,blade2E4,blade2e4,blade024,blade13,multivector,combine024,combine13,combine_multivector,get", "include/altruct/structure/math/vector3d.h:vector3d"]}
{"id": "C149", "title": "Inverses in plane-based geometric algebra", "statement": "Over every field, for every value a of every class but multivector with norm2() not zero (and with perpendicular parts, if a is a blade22), a.inv() is a two-sided inverse of a; norm2() is the scalar part of a ~a and diff2() that of a a. Without the condition the inverse of a blade22 is wrong.", "quantifier": "all values of all classes over every field", "why_tests_cant": "all field values", "anchors": ["include/altruct/structure/math/pga.h:inv,norm2,diff2"]}
{"id": "C150", "title": "Motions in plane-based geometric algebra", "statement": "a % b is b a ~b, negated if b is odd, provided that b ~b is a scalar or a has no scalar and no Euclidean bivector part; motions compose by the product; a rotor rotates points and planes about its axis by twice the half angle it was given; a translator moves points, planes and lines by its vector; a plane mirrors points; the meet of a point and a plane, and the join of a point and a line, vanish exactly on incidence; the join of two points is the line through both.", "quantifier": "all values of all classes over every commutative ring (field, for translators)", "why_tests_cant": "all values of all pairs of classes", "anchors": ["include/altruct/structure/math/pga.h:operator%,plane,line,point,translator,rotor"]}
{"id": "C151", "title": "The geometric algebra of space", "statement": "Over every commutative ring, the products, sums, differences, scalings, reverses and conjugates of rotors, vectors and multivectors in all combinations are those of the Clifford algebra with three generators of square 1, every element of which is exactly one multivector. Over a field, inv() of a rotor or vector with abs2() not zero is a two-sided inverse, and if sums of squares vanish only trivially (rationals, reals) inv() inverts every invertible multivector. rotate() composes by the product and, for a normalised rotor, preserves inner products; reflect() mirrors; make_rotor(from, to) is normalised and turns the direction of from into that of to unless they are opposite.", "quantifier": "all values over every commutative ring (field, where there is a division)", "why_tests_cant": "all component values over all rings", "anchors": ["include/altruct/structure/math/clifford3.h:rotor,vector,multivector,make_rotor"]}
{"id": "C152", "title": "Range minimum queries", "statement": "After build() over any sequence with any strict weak order, get_index(b, e) is for every nonempty range the first position of a least element in it, whatever the block size, and get_value(b, e) is the element there; size() is the length rounded up to whole blocks. log2_32 is the integer logarithm of every positive 32 bit number, and 0 for 0.", "quantifier": "all sequences shorter than 2^31, all strict weak orders, all block sizes, all ranges", "why_tests_cant": "block tables are shared by all blocks with the same stack history; which blocks meet depends on the whole sequence", "anchors": ["experimental/include/altruct/structure/container/range_minimum_query.h:direct_rmq,build,get_index,get_value,size"]}
{"id": "C153", "title": "Prefix trees under every history", "statement": "Over every sequence of calls of add, append, find, get, for_each, erase, num_words, num_letters and clear on a new prefix tree, each call returns what it should for the numbered set of words left by the calls before: a new word gets the next number, an erased one gives its number to the last word, for_each visits exactly the words with the given prefix in alphabetical order with their numbers, num_letters counts the distinct nonempty prefixes. No call touches freed memory, the tree holds exactly one node per letter plus the root, and the destructor releases every node once.", "quantifier": "all alphabet sizes and all finite sequences of calls with letters of the alphabet and numbers in use", "why_tests_cant": "the tree is a pointer structure whose shape depends on the whole history of insertions and removals", "anchors": ["experimental/include/altruct/structure/container/prefix_tree.h:prefix_tree"]}
{"id": "C154", "title": "Dictionary matching with the Aho-Corasick automaton", "statement": "After inserting any dictionary of nonempty words (with repetitions) and build(), count_matches returns, for each of any number of texts one after the other, the number of occurrences of all dictionary words in the text, and the node reached by any text spells the longest suffix of the text that begins a dictionary word. An empty word is counted twice per letter.", "quantifier": "all alphabet sizes, dictionaries, sequences of texts", "why_tests_cant": "transitions and suffix links are filled in lazily in an order that depends on the dictionary and on earlier texts", "anchors": ["experimental/include/altruct/structure/container/aho_corasick_trie.h:aho_corasick_trie"]}
{"id": "C155", "title": "The tree of palindromic substrings", "statement": "After adding any string letter by letter, total() is the number of palindromic substrings, distinct() and the sum of the values returned by add the number of different ones, and add returns 1 exactly when the letter creates a palindrome that was not there before. The nodes are the different palindromes, each once, with length, position of the first occurrence, number of palindromic suffixes, the node of the longest proper palindromic suffix and the nodes one letter longer on both sides. longest_suffix() is the node of the longest palindromic suffix, and after propagate() every node holds the number of occurrences of its palindrome.", "quantifier": "all alphabet sizes and strings", "why_tests_cant": "the suffix links followed depend on the whole string read so far", "anchors": ["experimental/include/altruct/structure/container/palindrome_tree.h:palindrome_tree"]}
{"id": "C156", "title": "Optimal assignment", "statement": "For every square cost matrix calc_max_cost terminates and returns the greatest total cost of an assignment of workers to jobs; get_matches_for_x is an assignment with this cost and get_matches_for_y its inverse. calc_min_cost does the same for the least cost.", "quantifier": "all sizes and integer cost matrices", "why_tests_cant": "optimality compares with all n! assignments, and the course of the search depends on ties between costs", "anchors": ["experimental/include/altruct/algorithm/graph/hungarian.h:hungarian,calc_max_cost,calc_min_cost,get_matches_for_x,get_matches_for_y"]}
{"id": "C157", "title": "Maximum flow", "statement": "For every network with non-negative capacities calc_max_flow terminates; between two different nodes the flow it leaves respects the capacities and is conserved at all other nodes, the returned number is its value, and no flow has a greater value. From a node to itself it returns 0.", "quantifier": "all numbers of nodes, integer capacities not above infinity, sources and sinks", "why_tests_cant": "maximality compares with all flows; the paths found depend on the whole network", "anchors": ["experimental/include/altruct/algorithm/graph/dinic_flow.h:dinic_flow,calc_max_flow"]}
{"id": "C158", "title": "Maximum bipartite matching", "statement": "For every list of different edges in which no node is both a left and a right end, bipartite_matching selects a set of these edges no two of which share a node, and no such set has more edges.", "quantifier": "all numbers of nodes and edge lists", "why_tests_cant": "optimality compares with all matchings", "anchors": ["experimental/include/altruct/algorithm/graph/bipartite_matching.h:bipartite_matching"]}
{"id": "C159", "title": "Lowest common ancestors", "statement": "For every graph the queries answer for the forest of its depth first search: depth is the number of steps to the root, ancestor is the lowest common ancestor, distance is the number of steps over it, and both are -1 for nodes of different trees or negative nodes. In every undirected forest distance is the length of the shortest route, which exists unless the answer is -1.", "quantifier": "all graphs, all pairs of nodes", "why_tests_cant": "the answers depend on the whole traversal and on a range minimum over it, for all shapes of trees", "anchors": ["experimental/include/altruct/algorithm/graph/lowest_common_ancestor.h:lowest_common_ancestor,depth,ancestor,distance"]}
{"id": "C160", "title": "Heavy-light decomposition", "statement": "For every undirected forest without repeated edges, position and node are inverse numberings of the nodes; the nodes below u are those at the subtree_size(u) positions from position(u) on; the nodes from u up to the top of its chain stand directly before it and parent(u) is the parent of that top; parent(u, k) is the k-th ancestor or -1; going from chain to chain towards a root at most log2(n) times is possible; walk_nodes and walk_edges return the number of nodes or edges between u and v, and their segments cover every node of the path once (walk_edges: every node but the common ancestor, standing for the edge to its parent) at its index from u. The construction keeps the weights of the edges at their places while it exchanges targets, so a weighted graph does not keep its edges.", "quantifier": "all forests, nodes and numbers k", "why_tests_cant": "the numbering depends on two traversals and on the sizes of all subtrees", "anchors": ["experimental/include/altruct/algorithm/graph/heavy_light_decomposition.h:heavy_light_decomposition,position,node,subtree_size,parent,walk,walk_nodes,walk_edges,heavy_light_decomposition_ex"]}
{"id": "C161", "title": "Search on a monotonic interval", "statement": "For every monotonic function that has a zero z in [b, e], monotonic_search for the value 0 returns an x in [b, e] with the value at x within epsy of 0, or x within epsx of z, or x within (e - b) / 2^max_iter of z. For other values y this fails: the tests of the values compare with 0 instead of y.", "quantifier": "all monotonic functions, intervals, tolerances and iteration limits", "why_tests_cant": "the functions, intervals and tolerances range over infinite sets", "anchors": ["include/altruct/algorithm/math/polynoms.h:monotonic_search"]}
{"id": "C162", "title": "Chromatic polynomials of trees, cycles and complete graphs", "statement": "For every number k of colours, the value at k of chromatic_polynomial_T(n), chromatic_polynomial_C(n) and chromatic_polynomial_K(n) is the number of ways to give k colours to the n nodes of every tree, of the cycle and of the complete graph so that the ends of every edge differ.", "quantifier": "all n (at least 1 for trees and cycles), all trees on n nodes, all k, all thresholds of the multiplication", "why_tests_cant": "the number of colourings grows without bound in n and k, and there are infinitely many trees", "anchors": ["experimental/include/altruct/algorithm/graph/chromatic_polynomial.h:chromatic_polynomial_T,chromatic_polynomial_C,chromatic_polynomial_K"]}
{"id": "C163", "title": "Suffix array: common prefixes and comparison of substrings", "statement": "For every nonempty string the k-th suffix is the k-th in increasing order, suffix order is its inverse, get_lcp(i, j) is the length of the longest common prefix of the suffixes at i and j, and compare_substrings compares any two substrings lexicographically.", "quantifier": "all strings, all pairs of positions, all pairs of substrings", "why_tests_cant": "the prefix lengths are carried over from one suffix to the next and queried as range minima, for all strings", "anchors": ["experimental/include/altruct/structure/container/suffix_array.h:suffix_array,get_lcp,compare_substrings,get_kth_suffix,get_suffix_order"]}
{"id": "C164", "title": "Nested double-width integers compute as integers modulo a power of two", "statement": "A double-width integer made of two halves, nested to any depth over machine words of any width, compares as its unsigned or two's complement value, adds and subtracts with carry without loss, gives the exact full product of two numbers, and its operators + - * and the prefix increments are exact modulo two to the number of bits. The postfix increments and the division do not behave as integers do.", "quantifier": "every word width from 8 bits, every depth of nesting, all pairs of numbers, every incoming carry", "why_tests_cant": "the carries and borrows of the three-product multiplication only interact on rare combinations of digits, and the number of values is astronomical", "anchors": ["experimental/include/altruct/structure/math/double_int.h:double_int,prim_int,assign_adc,assign_sbb,unsigned_mul_full,unsigned_mul,unsigned_div,signed_div"]}
{"id": "C165", "title": "Vectors are ordered lexicographically and computed element by element, and their products are the geometric ones", "statement": "Vectors of two, three or any fixed number of elements compare in the lexicographic order, which is total and agrees with equality. Their operators work element by element, or on every element with a scalar; when the scalar is a reference to an element of the vector itself, the elements after it are combined with its new value. In the plane and in space the cross product vanishes exactly on parallel vectors and together with the dot product gives the product of the squared lengths; rotation is undone by the inverse rotation up to the squared length.", "quantifier": "all dimensions, all vectors of integers, all operators + - * / %, scalars inside and outside the vector", "why_tests_cant": "a test of a few vectors cannot show that an order is total or that an identity holds for every vector, and the aliasing shows only when the scalar is not the last element", "anchors": ["include/altruct/structure/math/vectorNd.h:vectorNd,cmp,abs2", "include/altruct/structure/math/vector2d.h:vector2d,rot,irot,perp,cross", "include/altruct/structure/math/vector3d.h:vector3d"]}
{"id": "C166", "title": "Reading delimited tokens from a stream gives the words of the text", "statement": "Reading a list of tokens that are separated by the characters they may not contain ends on every input, with at least one token and no delimiter in any of them. If no delimiter is a blank, the tokens are the words between the runs of delimiters, without the blanks before each word; a delimiter at the start gives an empty first token, one at the end gives none. If the delimiters are the blanks, the tokens are the words between them. For other pairs of token types the reading may never end.", "quantifier": "all texts, all character types, all delimiter sets and white-space predicates", "why_tests_cant": "the number of texts is unbounded, and the wrong cases are particular arrangements of blanks and delimiters", "anchors": ["include/altruct/io/stream_tokenizer.h:token,tokens,tokens_delimited,tokens_allowed,operator>>"]}
{"id": "C167", "title": "Bridges and articulation points of a graph are found from its chain decomposition", "statement": "From a chain decomposition of an undirected graph, the cut edges are the edges that lie on no chain, each listed once; the cut vertices are the nodes of degree at least two that are an end of a cut edge or the first vertex of a block other than the first of its component, in increasing order; each biconnected component lists the vertices of a block once. On the decomposition the library computes, these are exactly the edges and the nodes whose removal increases the number of components.", "quantifier": "all graphs, all decompositions, all lists of cut edges", "why_tests_cant": "the number of graphs and decompositions is unbounded; a test sees only a few shapes", "anchors": ["experimental/include/altruct/algorithm/graph/chain_decomposition.h:cut_edges,cut_vertices,biconnected_components"]}
