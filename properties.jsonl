{"id": "C01", "title": "A Deque behaves as a list under any history of operations", "statement": "Starting from an empty Deque with any inline size N>=1 and any initial capacity, every sequence of push_back, push_front, pop_back, pop_front, clear, reserve, indexing, front, back and size produces exactly the outputs a plain sequence would, never touches storage out of bounds, and is undefined only when the sequence analogue is (pop/front/back/index on an empty container).", "quantifier": "every inline size N, every initial capacity, every finite sequence of operations, every element value", "why_tests_cant": "the ring-buffer head, the wrap point and the reallocation point interact; tests visit a few of the unboundedly many (head,size,capacity) configurations", "anchors": ["geomc/Deque.h: Deque::push_back, push_front, pop_back, pop_front, operator[], front, back, clear, reserve, item"]}
{"id": "C02", "title": "Deque indices wrap around in both directions", "statement": "For a non-empty deque d of size n and any (possibly negative or huge) index i, d[i] is the element at position i mod n counted from the front; on an empty deque indexing is undefined behaviour.", "quantifier": "every deque reachable by operations, every integer index", "why_tests_cant": "indices range over all integers", "anchors": ["geomc/Deque.h: Deque::operator[]", "geomc/function/Utils.h: positive_mod"]}
{"id": "C03", "title": "Copying a Deque yields an independent deque with equal contents", "statement": "Copy construction and copy assignment must produce a deque with the same sequence, whose own storage is at least as large as the capacity it reports and is not shared with the source. Copy construction violates this when the source has grown beyond its inline buffer and then shrunk: the copy claims the heap capacity while using the inline buffer.", "quantifier": "every source deque reachable by any history of operations", "why_tests_cant": "the failing histories need growth past N followed by shrinking", "anchors": ["geomc/Deque.h: Deque(const Deque&), operator=(const Deque&)"]}
{"id": "C04", "title": "Moving a Deque transfers the contents exactly once", "statement": "After move construction or move assignment between distinct deques the destination holds the source's sequence, the source is left empty and usable, heap buffers have exactly one owner and nothing is leaked; self-move-assignment must not destroy the contents (it does).", "quantifier": "every pair of deques reachable by any history", "why_tests_cant": "ownership errors depend on which side is inline and which on the heap", "anchors": ["geomc/Deque.h: Deque(Deque&&), operator=(Deque&&), ~Deque"]}
{"id": "C05", "title": "SmallStorage behaves as a growable array", "statement": "Every sequence of operations on SmallStorage containers that stays within their current capacities acts like the same sequence on lists: same observed values, every element destroyed exactly once, no dead or foreign slot touched, nothing leaked. A request for more than the current capacity (reserve, push_back on a full container, resize) violates this, whatever the container: relocation moves and destroys slots that hold no element.", "quantifier": "every inline size, every operation sequence, every element value", "why_tests_cant": "operation histories are unbounded, and reads of dead slots are invisible for trivial element types", "anchors": ["geomc/SmallStorage.h: _ensure_capacity, push_back, pop_back, resize, reserve, clear"]}
{"id": "C06", "title": "Moving a SmallStorage leaves a source that may be destroyed safely", "statement": "Moving a SmallStorage (construction from a heap-allocated or empty source, assignment between distinct containers) transfers the sequence, leaves the source empty and usable, and destroying both destroys each element once. Move construction from a non-empty inline container violates this: destroying the source destroys its elements a second time. Self-move-assignment loses the contents or reads dead elements.", "quantifier": "every source container", "why_tests_cant": "double destruction is invisible for trivial element types", "anchors": ["geomc/SmallStorage.h: SmallStorage(SmallStorage&&), ~SmallStorage"]}
{"id": "C07", "title": "UniqueStorage copies, moves and releases its buffer correctly", "statement": "UniqueStorage copy/move construction and assignment preserve the array contents, give each buffer exactly one owner, and never read or write outside the allocated extent when the declared sizes are respected.", "quantifier": "every size and contents, every finite history of copies and moves", "why_tests_cant": "ownership histories are unbounded", "anchors": ["geomc/Storage.h: UniqueStorage, Storage, SizedStorage, Dimension"]}
{"id": "C08", "title": "positive_mod is the mathematical modulus", "statement": "For integers a and b != 0, positive_mod(a,b) is the residue of a modulo b having b's sign (in [0,b) for b>0), whenever the intermediate a % b + b is representable; that is guaranteed when 2b does not exceed half the signed range (resp. the unsigned range). For larger divisors it is undefined (signed) or wrong (unsigned) for some dividends.", "quantifier": "every machine integer a and positive b", "why_tests_cant": "2^128 pairs", "anchors": ["geomc/function/Utils.h: positive_mod"]}
{"id": "C09", "title": "Integer floor_div and ceil_div round as documented", "statement": "For b>0 and no overflow of a+b: ceil_div is the ceiling of a/b for all a>-b, floor_div the floor for all a>=-b, and snap the least multiple of b not below a. The documentation promises this for all a, but both are wrong for more negative dividends except particular residues, which are characterised exactly.", "quantifier": "every pair of integers", "why_tests_cant": "sign and divisibility cases", "anchors": ["geomc/function/Utils.h: ceil_div, floor_div"]}
{"id": "C10", "title": "is_power_of_two decides powers of two", "statement": "is_power_of_two(x) is true exactly when x = 2^k for some k.", "quantifier": "every integer x", "why_tests_cant": "all integers", "anchors": ["geomc/function/Utils.h: is_power_of_two"]}
{"id": "C100", "title": "Solving decomposed systems in floating point", "statement": "With binary floating-point elements (any precision, rounding to nearest even; u = 2^-prec): (1) if every element of a column of the solution returned by backsolve_lu is a number (no infinity or NaN) and so is the diagonal of the matrix, then no pivot is zero and nothing overflowed on the way, and each element of the residual b - L U x is at most about 2 n u times the same element of |L| |U| |x|, plus the underflow terms, for every size, number of columns and condition; (2) skipping the first variables does not change the bits of the others; (3) each column is solved by itself; (4) backsolve_plu gives, bit for bit, what backsolve_lu gives for the permuted right-hand sides, whatever the output held before. VIOLATED if one expects the solution: in doubles a regular 2 x 2 system whose solution is representable is answered with an infinity, and in a system of whole numbers with pivots 1 the exact solution -1 is answered with 0.", "quantifier": "All precisions, all sizes n and numbers of columns m, all matrices and right-hand sides whose computed solution is made of numbers.", "why_tests_cant": "The error accumulates over loops of unbounded length; whether it stays within the bound depends on the exact bits of all elements.", "anchors": ["geomc/linalg/LUDecomp.h: backsolve_lu, backsolve_plu"]}
{"id": "C101", "title": "PLU decomposition in floating point", "statement": "With binary floating-point elements (any precision, rounding to nearest even; u = 2^-prec), for a matrix with at least as many columns as rows: if every element of the packed result of decomp_plu is a number (no infinity or NaN), then (1) so was every element of the matrix, and nothing overflowed on the way; (2) the returned order is a permutation of the rows whose parity is the returned one, and each element of the product L U differs from that of the reordered matrix by at most ((1 + u')^n - 1) times the same element of |L| |U|, plus the underflow terms, for every size; (3) no multiplier exceeds 1 in magnitude; (4) if no line is reported degenerate, no pivot but perhaps the last is zero. VIOLATED if one takes the returned count as a test of singularity: in doubles a regular 3 x 3 matrix (first rows 3, 1 and 1, 1/3 rounded) is reported degenerate, and a singular one (first rows 7, 7 and 1, 1) is not, and has no zero pivot.", "quantifier": "every precision, exponent range, matrix size with rows <= columns, and matrix of floating-point numbers whose decomposition has no infinity or NaN", "why_tests_cant": "the backward error must hold for all sizes and all matrices, however ill-conditioned; tests compare a few well-conditioned products with a tolerance", "anchors": ["geomc/linalg/LUDecomp.h: decomp_plu"]}
{"id": "C102", "title": "Solving systems of equations in floating point", "statement": "With binary floating-point elements (any precision, rounding to nearest even): (1) linear_solve always answers, whatever the elements (infinities and NaNs included); the flag depends on the matrix only; when it is false the right-hand sides are unchanged; (2) if the flag is true and a column of the solution and the matrix as it is left hold numbers only, then no pivot is zero and each equation has a residual b - A x of at most about 3 n u times the corresponding element of |L| |U| |x|, plus the underflow terms, for every size and condition; (3) skipping the first variables does not change the bits of the others, and each column is solved by itself. VIOLATED if one relies on the flag ('true if a solution could be found; false if the system is degenerate'): in doubles a 3 x 3 system without solutions (7x + 7y = 7, x + y = 2, z = 0) is answered with true and numbers, a regular one is refused, and for x + y = 1, x + y = 2 the answer is true while no element of the result is a number (the last pivot is never tested).", "quantifier": "every precision, exponent range, size, number of columns, matrix and right-hand sides of floating-point numbers", "why_tests_cant": "the residual must be small for every system, however ill-conditioned; tests compare a few well-conditioned solutions with a tolerance", "anchors": ["geomc/linalg/LUDecomp.h: linear_solve, decomp_plu, backsolve_lu"]}
{"id": "C103", "title": "LUP decomposition in floating point", "statement": "With binary floating-point elements (any precision, rounding to nearest even): (1) whatever the elements and the shape, the order returned by decomp_lup is a permutation of the columns whose parity is the returned one; (2) for a matrix with at least as many columns as rows, if every element of the packed result is a number (no infinity or NaN), so was every element of the matrix, and if moreover no line is reported degenerate, each element of L U differs from that of the matrix with reordered columns by at most ((1 + u')^n - 1) times the same element of |L| |U|, plus the underflow terms, no pivot but perhaps the last is zero, and each of these is the greatest of its row. VIOLATED without these conditions: for the rows (0, 0) and (1, 0) of doubles, reported degenerate, the product loses the element 1; and for the rows (2^-600, 0) and (2^600, 1) the result has an infinity and nothing is reported, although decomp_plu decomposes the same matrix into numbers.", "quantifier": "every precision, exponent range, matrix size and matrix of floating-point numbers", "why_tests_cant": "the backward error must hold for all sizes and all matrices, however ill-conditioned; tests compare a few well-conditioned products with a tolerance", "anchors": ["geomc/linalg/LUDecomp.h: decomp_lup"]}
{"id": "C104", "title": "Inverting matrices of any size in floating point", "statement": "With binary floating-point elements (any precision, rounding to nearest even), for the general inversion (used from 5 x 5 on): (1) if the flag is true and the result and the decomposed matrix hold numbers only (no infinity or NaN), every element of A X differs from that of the unit matrix by at most about 3 n u times the corresponding element of |L| |U| |X|, plus the underflow terms, for every size and condition; (2) if only one column of the result holds numbers, no pivot was zero; (3) the flag depends on the matrix only; when it is false the output is unchanged, otherwise the result does not depend on what the output held. VIOLATED if one relies on the flag ('true if the matrix is invertible, false otherwise'): in doubles a 5 x 5 matrix without an inverse is answered with true and numbers, a regular one is refused, and one with a row of zeros at its end is answered with true and a result that has an element that is no number.", "quantifier": "every precision, exponent range, size, output and matrix of floating-point numbers", "why_tests_cant": "the bound must hold for every matrix of every size, however ill-conditioned; tests compare a few well-conditioned products with a tolerance", "anchors": ["geomc/linalg/mtxdetail/MatrixInv.h: invNxN", "geomc/linalg/Matrix.h: inv"]}
{"id": "C105", "title": "The vector orthogonal to N-1 others, in floating point", "statement": "For any binary format: when orthogonal() of N-1 vectors finds no degenerate line and everything it computes is a number, every pivot it divides by is nonzero, the dot product of its result with each given vector is within a stated bound made of the computed factors and the result, and the last component is 1; otherwise it returns the zero vector. In doubles the documented meaning of the zero vector fails in both directions: independent vectors are answered with it, dependent ones with a nonzero vector, and (the last pivot is never tested) dependent ones with a NaN.", "quantifier": "all dimensions N >= 2 of the general overload, all N-1 vectors of floats, all binary formats", "why_tests_cant": "The bound must hold for every dimension and every tuple of vectors, and the zero vector depends on how the eliminations round.", "anchors": ["geomc/linalg/Orthogonal.h: orthogonal"]}
{"id": "C106", "title": "Null spaces in floating point", "statement": "For any binary format and n <= N - 2 vectors: when nullspace() returns true and everything it computes is a number, every pivot it divides by is nonzero, the dot product of each null vector with each given vector is within a stated bound made of the computed factors and the null vector, and the last N - n components of the null vectors form the unit matrix (so they are independent); when it returns false the null vectors are zero. In doubles the documented test of dependence fails in both directions: independent vectors are refused, dependent ones accepted with nonzero null vectors, and the zero vector alone is accepted and answered with a NaN.", "quantifier": "all dimensions N, all numbers n <= N - 2 of vectors, all vectors of floats, all binary formats", "why_tests_cant": "The bound must hold for every dimension and every tuple of vectors, and the flag depends on how the eliminations round.", "anchors": ["geomc/linalg/Orthogonal.h: nullspace"]}
{"id": "C107", "title": "Projections on an axis in floating point", "statement": "For any binary format and dimension: when the vectors and the results are numbers, the fraction f returned by fraction_on makes (x - f axis) . axis at most a stated bound, and each element p of project_on, times the exact squared length of the axis, is within a stated bound of the axis's element times the exact dot product; when the computed squared length is zero project_on returns the axis itself. In doubles that happens for axes that are not zero: the projection of (1, 0) on (2^-600, 0) is (2^-600, 0) instead of (1, 0); and the projection of (2^600, 0) on itself is not a number, nor is the fraction.", "quantifier": "all dimensions N, all vectors and axes of floats, all binary formats", "why_tests_cant": "The bound must hold for every pair of vectors, and the failures need axes whose squared length leaves the range of the format.", "anchors": ["geomc/linalg/vecdetail/VecBase.h: VecCommon::project_on, VecCommon::fraction_on"]}
{"id": "C108", "title": "Gram-Schmidt orthogonalisation in floating point", "statement": "For any binary format, any dimension other than two and any number n of vectors: orthogonalize leaves the first vector and those past the n-th alone, reduces every other one by its projections on all results before it one after another, and when the results are numbers and the squared length of a result is a nonzero number, the dot product of that result and the next one is within a stated bound made of the rounding errors of one projection and one subtraction. The bound is relative to the vectors before the subtraction: in doubles (1, 1, 1) and (1 + 2^-52, 1, 1) are turned into vectors with a squared cosine of 1/3, and (1, 1, 0) is left alone after (2^-600, 0, 0).", "quantifier": "all dimensions N other than 2, all numbers n of vectors, all vectors of floats, all binary formats", "why_tests_cant": "The bound must hold for every family of vectors and every length of the loops, and cancellation is worst for vectors no test would choose.", "anchors": ["geomc/linalg/Orthogonal.h: orthogonalize"]}
{"id": "C109", "title": "Orthonormal bases in floating point", "statement": "For any binary format: the two-dimensional overload of orthogonalize keeps the first of two vectors and makes the second exactly orthogonal to it, of exactly its length and to its left (any other number of vectors is left alone); orthonormalize divides each of the n vectors left by orthogonalize by its computed length, so its squared length is 1 up to N + 4 roundings when no square underflows or overflows and the vector is not zero. In doubles the result need not be orthonormal: for (1, 1, 1) and (1 + 2^-52, 1, 1) the dot product of the two results is above 1/2, and for dependent vectors the second result is all NaN.", "quantifier": "all dimensions N, all numbers n of vectors, all vectors of floats, all binary formats", "why_tests_cant": "The lengths must be right for every family of vectors and every format, and the failures need nearly dependent vectors.", "anchors": ["geomc/linalg/Orthogonal.h: orthonormalize, orthogonalize", " geomc/linalg/vecdetail/Vec2.h: left_perpendicular"]}
{"id": "C11", "title": "The LCG visits every 64-bit state before repeating", "statement": "From any seed the LCRand generator passes through all 2^64 states and returns to the seed for the first time after exactly 2^64 steps.", "quantifier": "every seed", "why_tests_cant": "2^64 steps cannot be run", "anchors": ["geomc/random/LCRand.h: rand64"]}
{"id": "C110", "title": "Projections to subspaces in floating point", "statement": "For any binary format, dimension and number n of basis vectors: where the result of project_to_orthogonal_subspace is a number, so are the projections on all basis vectors, and it is their sum up to n roundings; project_to_subspace leaves the orthonormal basis in the array given to it, and its result is the sum of the projections on that basis up to n roundings. In doubles a vector of the subspace need not be its own projection: for the plane of (1, 1, 1) and (1 + 2^-52, 1, 1), the first element of the projection of (0, 1, 1) is above 1/2.", "quantifier": "all dimensions N, all numbers n of basis vectors, all vectors of floats, all binary formats", "why_tests_cant": "The bound must hold for every basis and vector, and the failure needs a nearly dependent basis.", "anchors": ["geomc/linalg/Orthogonal.h: project_to_orthogonal_subspace, project_to_subspace"]}
{"id": "C12", "title": "xoshiro and splitmix state transitions lose no information", "statement": "The xoshiro state update is a bijection on 256-bit states; the zero state (a fixed point giving only zeros) is never reached from a non-zero state nor from rseed(s) for any seed; splitmix64 is a bijection of its 64-bit seed; different seeds (or entropy words) give different states. The entropy-callback seeding, whose comment promises no zeros, violates this: four particular equal words give the zero state.", "quantifier": "every 256-bit state", "why_tests_cant": "state space of 2^256", "anchors": ["geomc/random/Xorshiro.h: rand64, splitmix64, seed"]}
{"id": "C13", "title": "Bounded random integers are in range and exactly uniform", "statement": "For every bound 0<hi<=3*2^30, rand<unsigned>(hi) returns values in [0,hi) and, over all 2^32 raw words, every value is produced by the same number of accepted words; for hi > 3*2^30 uniformity fails (witness).", "quantifier": "every bound hi and every raw word", "why_tests_cant": "2^64 (bound, word) pairs", "anchors": ["geomc/random/Random.cpp: Random::rand<unsigned int>(hi)"]}
{"id": "C14", "title": "Reseeding makes the stream reproducible", "statement": "After rseed(s) the subsequent stream should depend on s only. For word outputs it does; for boolean outputs it does not, since buffered bits survive the reseed.", "quantifier": "every history before the reseed, every seed", "why_tests_cant": "needs histories leaving the bit pool part-used", "anchors": ["geomc/random/Random.cpp: rand<bool>", "geomc/random/LCRand.cpp: rseed"]}
{"id": "C15", "title": "hash_combine keeps distinct inputs distinct", "statement": "For every fixed accumulator, hash_combine is a bijection in the value mixed in, at each supported width, so arrays or argument packs differing only in their last element cannot collide. In the accumulator it is not injective: for every nonce two arrays differing only in an earlier element collide.", "quantifier": "every accumulator and every pair of values of the width", "why_tests_cant": "2^128 pairs", "anchors": ["geomc/Hash.h: hash_combine, hash_array"]}
{"id": "C16", "title": "siphash computes SipHash-2-4", "statement": "The byte-level hash function equals the published SipHash-2-4 specification on every key and every message, for 64- and 128-bit output; each round is invertible.", "quantifier": "every key, every message of every length", "why_tests_cant": "messages are unbounded", "anchors": ["geomc/function/functiondetail/SipHash.cpp: siphash, sipround"]}
{"id": "C17", "title": "Forward grid iteration enumerates every cell of a region exactly once", "statement": "Incrementing a GridIterator from begin() visits each integer point of a non-empty region exactly once in the chosen axis order, volume() many, and then equals end(). Violations: an empty region is visited anyway unless the last axis has hi + 1 = lo, and the one-dimensional iterator built from corners runs past its exclusive upper corner.", "quantifier": "every dimension, every non-empty region, both orders", "why_tests_cant": "regions of every shape and dimension", "anchors": ["geomc/shape/GridIterator.h: operator++, begin, end"]}
{"id": "C18", "title": "Grid iterator arithmetic agrees with stepping", "statement": "Subtraction counts the increments between two positions of a region, end() included. Decrement undoes increment exactly when the increment does not carry into the next axis, otherwise it lands one cell short. += n ignores the iterator's position and the region's origin: it equals n increments only from begin() of a region anchored at zero. The one-dimensional specialisation satisfies all three.", "quantifier": "every region, position and offset", "why_tests_cant": "dependence on region origin and carries", "anchors": ["geomc/shape/GridIterator.h: operator--, operator+=, distance_to"]}
{"id": "C19", "title": "Matrix layouts address every element exactly once", "statement": "Row-major and column-major indexing are bijections from (row,col) to [0, rows*cols), and the transposing iterator visits the row-major order of a column-major buffer; its distance is the inverse of its advance.", "quantifier": "every matrix shape, every layout", "why_tests_cant": "all shapes", "anchors": ["geomc/linalg/mtxdetail/MatrixLayout.h"]}
{"id": "C20", "title": "Raster sampling stays inside the image for every edge behaviour", "statement": "For every grid coordinate, clamp, periodic and mirror edge handling map it into [0,extent) as the border, the tiling or the reflection about the end samples prescribes, and leave coordinates inside unchanged; the flat index is a bijection; sampling never leaves the buffer; set() changes exactly the addressed sample; a raster built from existing data holds the values of the cells in first-dimension-consecutive order; copy() delivers a region in first-dimension-consecutive order. Violations: mirroring an axis of extent one divides by zero, and the constant mode reads an uninitialised value on a one-channel raster until setAbyss() is called.", "quantifier": "every coordinate, extent and dimension", "why_tests_cant": "all integers", "anchors": ["geomc/function/functiondetail/RasterDetail.h", "geomc/function/Raster.h"]}
{"id": "C21", "title": "Rect union, intersection and containment are set operations", "statement": "p is in (a & b) iff p is in a and in b; a | b is the smallest Rect containing both (for non-empty operands); a non-empty box is contained iff all its points are; spanning_corners and from_point_sequence give the smallest Rect containing the points; the Cartesian product is the product set; clip returns the nearest point of a non-empty Rect, dist2 the least squared distance; convex_support maximises the dot product.", "quantifier": "every pair of Rects, every point, every dimension", "why_tests_cant": "infinite point sets", "anchors": ["geomc/shape/Rect.h: operator&, operator|, contains, clip"]}
{"id": "C22", "title": "Rect overlap, exclusion and projection do what their documentation says", "statement": "For non-empty Rects intersects() is sound, and misses a shared point exactly when the Rects touch end to end along some axis (a one-cell integer Rect does not intersect itself); it can hold for an empty Rect, which shares no point. contains(box) for an empty box holds only if no extreme protrudes. Exclusion a - b should return the remainder, but always returns the empty Rect and overwrites a. project() should return the nearest surface point: it does on an interval, but moves every surface point of a box that is not a corner, and sdf() is negative there instead of zero: its size is the distance to the nearest corner (which is right for an interval).", "quantifier": "every pair of Rects", "why_tests_cant": "boundary-touching and empty cases", "anchors": ["geomc/shape/Rect.h: intersects, operator-, project, contains"]}
{"id": "C23", "title": "remap and unmap are mutually inverse", "statement": "On a Rect with non-zero extent along each axis, unmap(remap(p)) = p and conversely, and the unit box maps onto the Rect.", "quantifier": "every non-degenerate Rect and point", "why_tests_cant": "continuous domain", "anchors": ["geomc/shape/Rect.h: remap, unmap"]}
{"id": "C24", "title": "Ray-box intersection returns exactly the parameters inside the box", "statement": "For a non-empty Rect, the returned interval contains s iff origin + s*direction lies in the Rect; for an empty Rect the result should be empty but is not.", "quantifier": "every ray and Rect, including axis-parallel rays", "why_tests_cant": "continuous domain", "anchors": ["geomc/shape/Rect.h: intersect"]}
{"id": "C25", "title": "Permutation matrices keep their two index maps mutually inverse", "statement": "After any sequence of setRowSources, setColSources, swap_rows, swap_cols, transpose and set_identity with valid permutations, row sources and column sources are inverse permutations, element (r,c) is 1 iff row r comes from c, and each operation changes the elements as documented. sign() returns the parity of the permutation as long as the index maps were never assigned and every swap exchanges two different lines; after setRowSources/setColSources it is undefined, and swap_rows(a,a) wrongly flips it.", "quantifier": "every size, every operation sequence", "why_tests_cant": "n! permutations, unbounded histories", "anchors": ["geomc/linalg/mtxtypes/PermutationMatrix.h"]}
{"id": "C26", "title": "In-place application of a permutation equals out-of-place application", "statement": "permutation_apply(p,v) leaves v[i] = old v[p[i]] for every permutation and every n; it is documented to leave p as the identity, which is false.", "quantifier": "every permutation of every size", "why_tests_cant": "n! permutations", "anchors": ["geomc/linalg/mtxtypes/PermutationMatrix.h: permutation_apply", "geomc/linalg/LUDecomp.h: destructive_apply_permutation"]}
{"id": "C27", "title": "permutation_sign returns the parity of a permutation", "statement": "It should equal the sign of the permutation (parity of the number of exchanges that produce it); it returns (-1)^(number of displaced elements) instead, which is right exactly when the number of non-trivial cycles is even, and is wrong for every single exchange. The array is left as the identity.", "quantifier": "every permutation of every size", "why_tests_cant": "n! permutations", "anchors": ["geomc/linalg/mtxtypes/PermutationMatrix.h: permutation_sign"]}
{"id": "C28", "title": "PLU decomposition factors the permuted matrix", "statement": "For every square or wide matrix over a field, decomp_plu yields L (unit lower), U (upper), P a permutation with L*U = P*M exactly, and the parity flag is the sign of P; a degenerate count above zero means a singular matrix, and nonsingular matrices give non-zero pivots. For tall matrices the product differs from P*M in the last column below the square part by exactly m(r,c)*(u(c,c)-1), so for every tall shape some matrix is not reproduced (violation). decomp_lup gives L*U = M*P when no row is degenerate; with a degenerate row it need not, for every shape from 2x2 (violation).", "quantifier": "every shape and every entry assignment over any field", "why_tests_cant": "infinite domain", "anchors": ["geomc/linalg/LUDecomp.h: decomp_plu"]}
{"id": "C29", "title": "linear_solve solves the system or reports failure", "statement": "linear_solve on a nonsingular matrix returns true with A*X = B for any number of right-hand sides; it returns false only for singular matrices; skipping leading rows leaves the others unchanged; the vector version below 5 dimensions, by inversion, also solves. Singular matrices whose last pivot alone vanishes are reported as solved, for every size (violation).", "quantifier": "every size, every system over a field", "why_tests_cant": "infinite domain", "anchors": ["geomc/linalg/LUDecomp.h: linear_solve, backsolve_lu, backsolve_plu"]}
{"id": "C30", "title": "Closed-form determinants and inverses are correct", "statement": "det2x2, det3x3, det4x4 equal the Laplace-expansion determinant, which is zero exactly for singular matrices; for sizes 2, 3 and 4 and every pair of storage layouts inv returns true with a two-sided inverse exactly when the matrix is nonsingular and leaves the output unchanged otherwise; for every other size nonsingular matrices are inverted and false means singular, but from 5x5 up (and for 1x1) singular matrices with only the last pivot zero are reported as inverted (violation).", "quantifier": "every matrix over any field", "why_tests_cant": "infinite domain", "anchors": ["geomc/linalg/mtxdetail/MatrixDet.h", "geomc/linalg/mtxdetail/MatrixInv.h"]}
{"id": "C31", "title": "The general determinant is the determinant", "statement": "The determinant is the signed product of the diagonal left by decomp_plu, but detNxN and det_destructive multiply buffer elements i*i instead: for every size from 2 and every invertible diagonal matrix they return 0 (violation). They are right for 1x1 matrices and when a degenerate line is reported. The determinant of a DiagMatrix is the product of its diagonal if it is square and 0 if it is not, and of a permutation its parity.", "quantifier": "every matrix of every size", "why_tests_cant": "infinite domain", "anchors": ["geomc/linalg/mtxdetail/MatrixDet.h: detNxN, det_destructive"]}
{"id": "C32", "title": "Cholesky factorisation is sound and complete", "statement": "For every symmetric real matrix of any size, cholesky returns true exactly when the matrix is positive definite, and then the result is lower triangular with positive diagonal and M*M^T equals the input. A non-square matrix is refused and left unchanged. Symmetry is not checked: for every size n >= 2 there is a matrix that is not positive definite and is nevertheless accepted (violation).", "quantifier": "every size and entry", "why_tests_cant": "infinite domain", "anchors": ["geomc/linalg/Cholesky.h: cholesky"]}
{"id": "C33", "title": "Gram-Schmidt preserves spans and yields orthogonal vectors; projections are nearest points", "statement": "In any dimension other than 2, for any family of real vectors, orthogonalize leaves the first vector unchanged, yields pairwise orthogonal vectors and keeps the span of every prefix. For independent vectors (at most as many as the dimension) this holds in every dimension and no result is zero; orthonormalize then yields an orthonormal family with the same prefix spans. project_to_orthogonal_subspace (orthogonal bases) and project_to_subspace (independent bases) return a vector of the span whose residual is orthogonal to every basis vector, hence the nearest point of the subspace. In two dimensions the second vector is overwritten, so the span of dependent vectors is not kept (violation).", "quantifier": "every dimension and family of vectors", "why_tests_cant": "infinite domain", "anchors": ["geomc/linalg/Orthogonal.h: orthogonalize", "geomc/linalg/Orthogonal.h: orthonormalize", "geomc/linalg/Orthogonal.h: project_to_subspace", "geomc/linalg/vecdetail/VecBase.h: project_on"]}
{"id": "C34", "title": "Matrix products specialised by type agree with the dense product", "statement": "Dense matrix*matrix (and its accumulating form), matrix*vector, vector*matrix, matrix*diagonal with no more columns than rows in the diagonal matrix, permutation*matrix, matrix*permutation, permutation*vector, vector*permutation, and permutation*permutation into a permutation matrix all equal the mathematical product of the matrices they stand for. Violations: matrix*(wide diagonal) reads out of bounds; diagonal*matrix ignores the matrix and yields the squared diagonal; permutation*permutation into a dense matrix yields the transpose of the product; the permutation product does not update the cached sign, so a product in a new matrix reports sign +1 whatever its parity.", "quantifier": "every shape and entry over any ring", "why_tests_cant": "infinite domain", "anchors": ["geomc/linalg/mtxdetail/MatrixMult.h"]}
{"id": "C35", "title": "Unit quaternions act as rotations", "statement": "Quaternion multiplication is associative with identity, multiplicative norm and conjugate as inverse; q*v for a unit quaternion is a rotation (keeps dot and cross products), v*q undoes it, and products compose; rotation_from_axis_angle yields a unit quaternion turning by the angle about the axis; to_axis_angle_rotation and to_angular_velocity convert back; exp has norm e^w and log inverts it on quaternions with non-zero vector part; powers add. Violations: log and pow of real quaternions (also the identity) are NaN; rotation_direction_align turns by twice the angle and never aligns two different unit vectors.", "quantifier": "every quaternion and vector", "why_tests_cant": "continuous domain", "anchors": ["geomc/linalg/Quaternion.h"]}
{"id": "C36", "title": "3D axis rotation of vectors is a rotation", "statement": "Vec3 rotate(axis, angle) should be the rotation about the axis; its z component is off by w*u*(x-z)*cos(angle)/|axis|^2, so it is right exactly when that vanishes, and even the zero rotation moves points. rotate(axis, center, angle) with a unit axis is off by 2(1-cos)(v*y+w*z) times the axis. align(from, to) of non-opposite unit vectors maps from to to and preserves all lengths and angles.", "quantifier": "every axis, angle and vector", "why_tests_cant": "continuous domain", "anchors": ["geomc/linalg/vecdetail/Vec3.h: rotate"]}
{"id": "C37", "title": "An AffineTransform always carries its true inverse", "statement": "Every AffineTransform built from rotations, translations, non-zero scales, direction alignments and invertible matrices by composition, division and inversion (b*a, a/b, *=, /=, apply, apply_inverse, inverse) satisfies mat*inv = inv*mat = identity, so applying then un-applying returns the original point; composition and division act in the documented order, normals stay perpendicular to transformed directions, and each constructor acts as documented. Violations: a singular matrix is accepted silently, resizing to more dimensions loses the inverse of every translating transform, and x /= x leaves the old inverse beside the identity.", "quantifier": "every expression tree of transforms", "why_tests_cant": "unbounded composition trees", "anchors": ["geomc/linalg/AffineTransform.h"]}
{"id": "C38", "title": "direction_align maps the first direction to the second", "statement": "For unit vectors that are not opposite, the rotation maps dir to align_with and is orthogonal; for opposite vectors the result is wrong unless they lie in the xz-plane.", "quantifier": "every pair of unit vectors", "why_tests_cant": "continuous domain", "anchors": ["geomc/linalg/AffineTransform.h: rotmat_direction_align, direction_align"]}
{"id": "C39", "title": "Dual numbers compute the exact derivative of any expression", "statement": "Let dual variables hold the value and derivative of arbitrary curves at a point. For every expression over +, -, *, / (also mixed with scalars on either side, except scalar minus dual), negation, sin, cos, asin, acos, atan, atan2, log, pow(dual,scalar), pow(scalar,dual), sqrt, abs, ceil, floor, min, max, fused multiply-add and sum of products, inside the domains and away from kinks, the result is finite and holds the value and the derivative of the expression along the curves; the same for straight-line programs using =, +=, -=, *=, /=, ++, --. At a tie min resolves between the true one-sided derivatives as the policy says, and max returns the true right derivative under the default policy; abs at zero does so when its argument is not decreasing. Violations: exp and tan return the negated derivative; scalar minus dual does not negate; pow(dual,dual) is off by dx*b^e*(1-e/b) and is NaN at exponent 0; pow(dual,n) is NaN at base 0; policy conversion, and max and pow(scalar,dual) under any policy but the default, replace the value by the derivative; abs at zero with a decreasing argument swaps left and right; x *= x and x /= x compute a wrong derivative.", "quantifier": "every expression tree and evaluation point in its domain", "why_tests_cant": "unbounded expression trees", "anchors": ["geomc/function/functiondetail/DualFunctions.h", "geomc/function/functiondetail/DualImpl.h"]}
{"id": "C40", "title": "Perlin noise: value, gradient, continuity and repetition", "statement": "In wrap-around integer arithmetic, for every dimension, gradient table and point whose lattice coordinates fit 64 bits, eval returns the ease-weighted blend of the planes of the corners of the point's cell, regardless of what its scratch arrays held; for two or more dimensions gradient returns the same value together with the total derivative of the noise, everywhere including cell boundaries; the noise is continuous everywhere, adjacent cells agree on shared faces, it is zero at lattice points and bounded by the corner planes. Violations: by the language's signed-overflow rule every evaluation in two or more dimensions, and every one-dimensional evaluation outside [-1,1), is undefined; the one-dimensional gradient reads an uninitialised scalar; the hash, documented to avoid a period of 256, makes the noise repeat with period 256 in one dimension and under the shift (17,3) in two.", "quantifier": "every dimension, gradient table and point", "why_tests_cant": "continuous domain", "anchors": ["geomc/function/PerlinNoise.h"]}
{"id": "C41", "title": "Appending a Deque's own element to it", "statement": "d.push_back(d[i]) appends a copy of the indexed element whenever the deque has spare capacity; when it is full the element is moved out and destroyed before being read (violation, witness).", "quantifier": "every reachable deque, every index", "why_tests_cant": "only fails exactly at the reallocation boundary, and silently for trivial element types", "anchors": ["geomc/Deque.h: Deque::push_back, reserve"]}
{"id": "C42", "title": "MTRand follows the Mersenne-Twister recurrence for ever", "statement": "After seeding, MTRand's first 624 outputs are those of an LCRand with the same seed, and for every n output n+624 is determined from outputs n, n+1 and n+397 by the (untempered) Mersenne-Twister recurrence, however the block regeneration falls.", "quantifier": "every seed and every position in the stream", "why_tests_cant": "the stream is unbounded and regeneration happens in place every 624 outputs", "anchors": ["geomc/random/MTRand.cpp: rand32, rseed"]}
{"id": "C43", "title": "Random floats lie in [0,1] and each binade gets its exact weight", "statement": "rand<float>() and rand<double>() return a value in the closed interval [0,1] for every state of every generator, and over equally likely coin flips the drawn exponent selects each binade with probability equal to its width.", "quantifier": "every generator state; all flip sequences of any length", "why_tests_cant": "the rare exponents occur with probability down to 2^-1022", "anchors": ["geomc/random/Random.cpp: rand<float>, rand<double>, rand<bool>"]}
{"id": "C44", "title": "Continuous raster coordinates map samples to their own positions", "statement": "Sampling at the domain position of a sample returns that sample. Violated: the domain's upper end maps to grid coordinate extent instead of extent - 1, so with the default domain nearest sampling at the position of sample i returns sample i exactly when 2i < extent - 1; and below the domain the interpolation parameter is never positive.", "quantifier": "every extent, domain and sample index", "why_tests_cant": "needs every extent; half the samples happen to be right", "anchors": ["geomc/function/Raster.h: sample, domain", "geomc/function/functiondetail/RasterDetail.h: _ImplRasterSample"]}
{"id": "C45", "title": "Translating, scaling, dilating and Minkowski-adding Rects act on the point sets", "statement": "r + d and r - d are the translated sets; r * a is the image of a non-empty r under scaling, for positive, zero and negative factors; dilation by c is the set of points within c along each axis; minkowski_sum is the set of sums. Scaling an empty Rect always yields a non-empty one (violation), and point - rect returns rect - point instead of the reflected box (violation).", "quantifier": "all dimensions, Rects, points, vectors and factors", "why_tests_cant": "The claims compare infinite point sets for every Rect and factor, including sign changes and empty operands.", "anchors": ["geomc/shape/Rect.h:operator+", "geomc/shape/Rect.h:operator*", "geomc/shape/Rect.h:dilated", "geomc/shape/Rect.h:minkowski_sum"]}
{"id": "C46", "title": "A Rect built from a centre or corner and lengths has that centre and those lengths", "statement": "For floating point Rects from_center, from_corner and set_dimensions give exactly the requested centre and absolute lengths. For integer Rects the length is right when at least 1; the centre comes back right for even lengths or non-negative centres and is off by one for odd lengths about a negative centre (violation); lengths below 1, documented as allowed, give boxes one (from_center) or two (from_corner) too long (violation); set_dimensions reaches the length only if its parity matches the old one (violation).", "quantifier": "all centres, corners and lengths of either sign", "why_tests_cant": "Truncating division makes the result depend on sign and parity of every coordinate.", "anchors": ["geomc/shape/Rect.h:from_center", "geomc/shape/Rect.h:from_corner", "geomc/shape/Rect.h:center", "geomc/shape/Rect.h:dimensions", "geomc/shape/Rect.h:set_dimensions"]}
{"id": "C47", "title": "fitted_to gives the least scaled copy of a Rect that contains another", "statement": "a.fitted_to(b), for a with positive lengths and non-empty b, is a scaled copy of a that contains b and equals b's length along some axis.", "quantifier": "all dimensions and all Rects meeting the conditions", "why_tests_cant": "The claim is optimality over all Rects.", "anchors": ["geomc/shape/Rect.h:fitted_to"]}
{"id": "C48", "title": "contact_vector moves a Rect into contact, by the shortest way out of an overlap", "statement": "For non-empty integer Rects the returned flag equals intersects(); translating by the vector leaves the Rects sharing a boundary point but not overlapping; if they overlapped the vector is along one axis and no separating translation is shorter in every coordinate; if they did not overlap, each coordinate of the vector is the least that brings them together. (Since integer Rects include their ends, contact still shares a layer of cells although the documentation says disjoint.)", "quantifier": "all dimensions and all non-empty integer Rects whose differences do not overflow", "why_tests_cant": "Minimality ranges over all translations.", "anchors": ["geomc/shape/Rect.h:contact_vector"]}
{"id": "C49", "title": "orthogonal and nullspace return vectors orthogonal to their arguments", "statement": "In 2 and 3 dimensions orthogonal() returns a vector orthogonal to the N-1 arguments that is non-zero exactly when they are independent. In N >= 4 dimensions it does so exactly when the first N-1 components of the vectors form a nonsingular matrix; otherwise it returns zero or divides by zero, so for every N >= 4 there are independent vectors for which the zero vector is returned, independent vectors for which it divides by zero, and dependent vectors for which it divides by zero (violations of the documentation). nullspace() with n <= N-2 vectors returns N-n independent vectors orthogonal to all of them exactly when the first n components form a nonsingular matrix; independent vectors may be refused (n >= 2) or cause a division by zero (violations), and with N-1 dependent vectors it answers true with a zero vector (violation).", "quantifier": "every dimension, number of vectors and entries of any field with a sane magnitude comparison", "why_tests_cant": "infinite domain; failures occur on measure-zero inputs tests do not draw", "anchors": ["geomc/linalg/Orthogonal.h: orthogonal", "geomc/linalg/Orthogonal.h: nullspace"]}
{"id": "C50", "title": "Multiplying into storage shared with an operand", "statement": "mul(&d, a, b) stores the product of the operands' values from before the call and changes nothing else whenever d's storage lies inside an operand's storage (such as mul(&m, m, m)) or is disjoint from both. Partly overlapping storage is not detected and gives wrong products; mul_acc is correct for disjoint storage only and d += d*b is wrong.", "quantifier": "every shape, layout, base address and memory content", "why_tests_cant": "aliasing patterns and shapes are unbounded", "anchors": ["geomc/linalg/Matrix.h: mul, mul_acc, mtx_aliases_storage", "geomc/linalg/mtxtypes/SimpleMatrix.h: get_storage_tokens"]}
{"id": "C51", "title": "Transposing matrices", "statement": "transpose(&m, m) of a square matrix transposes it in place; for matrices of one type over the same or disjoint storage, and for different types over disjoint storage, transpose(&d, m) makes d(c,r) the old m(r,c); nothing outside the destination changes. For different matrix types over shared storage the transpose is applied twice and the result is wrong: a square matrix gets its lower triangle mirrored. Only when the two matrices have opposite layouts over the same storage is the result right, and then the memory does not change.", "quantifier": "every shape, layout, base address and memory content", "why_tests_cant": "aliasing patterns and shapes are unbounded", "anchors": ["geomc/linalg/Matrix.h: transpose", "geomc/linalg/mtxdetail/MatrixFunctionImpl.h: mtx_copy_txpose"]}
{"id": "C52", "title": "2D rotations, perpendiculars and polar coordinates", "statement": "rotated(angle) keeps lengths and adds angles; the perpendiculars are the quarter turns; to_polar gives the length and an angle in [0, 2pi) with x = r cos, y = r sin. from_polar swaps radius and angle, so it does not undo to_polar.", "quantifier": "every vector and angle", "why_tests_cant": "continuous domain", "anchors": ["geomc/linalg/vecdetail/Vec2.h: rotated, left_perpendicular, right_perpendicular, angle, to_polar, from_polar"]}
{"id": "C53", "title": "Spherical coordinates round-trip", "statement": "from_spherical undoes to_spherical for every non-zero point, with radius the length, elevation in [0, pi] and azimuth in (-pi, pi]; to_spherical undoes from_spherical for positive radius, elevation strictly between 0 and pi and azimuth in (-pi, pi].", "quantifier": "every point and coordinate triple", "why_tests_cant": "continuous domain", "anchors": ["geomc/linalg/vecdetail/Vec3.h: to_spherical, from_spherical"]}
{"id": "C54", "title": "N-dimensional vector geometry", "statement": "For vectors of every dimension: dot is the inner product and is bounded by the product of the lengths; mag is the Euclidean length, zero only for the zero vector; dist is a metric and dist2 its square; unit has length one and the same direction (and fails exactly for the zero vector); project_on gives the nearest multiple of the axis, leaving a remainder perpendicular to it, and fraction_on is that multiple; with_length gives the requested length in the same direction and leaves the zero vector unchanged; mix starts at one vector, ends at the other and moves at constant speed on the straight line; angle_to is the only angle in [0, pi] whose cosine is the normalised inner product, and is symmetric; ==, is_zero, min, max, argmax, argmin (first of ties), clamp and resized do what they say. With crossed bounds clamp gives the upper bound.", "quantifier": "all dimensions, all vectors of real numbers, all axes, lengths and mix parameters", "why_tests_cant": "Vectors range over a continuum in every dimension; the triangle and Cauchy-Schwarz inequalities and the minimality of projections are universally quantified.", "anchors": ["geomc/linalg/vecdetail/VecBase.h: VecCommon::unit, dot, mag, mag2, dist, dist2, project_on, fraction_on, with_length, mix, angle_to, min, max, clamp, argmax, argmin, resized, is_zero", "geomc/linalg/Vec.h: operators"]}
{"id": "C55", "title": "Rays", "statement": "at_distance(d) is the point of the ray's line at distance |d| from its origin, forward for positive d; at_multiple(s) is origin + s * direction and negating a ray reverses it; project gives the point of the carrying line nearest to p, which is on the ray itself exactly when p is not behind the origin; multiplying a ray by an affine transform transforms every point of the ray, and dividing by it undoes that; resized keeps the common coordinates. dist2 is the squared distance to the line only when p is the origin, or its offset is perpendicular to the direction, or p is exactly as far from the origin as the direction is long; for every other point it is wrong (it can be negative, and positive for points on the ray).", "quantifier": "all dimensions, rays, points, distances, multiples and transforms", "why_tests_cant": "Nearest-point claims quantify over all points of a line; the dist2 error vanishes for points at the one radius a test with a unit direction may pick.", "anchors": ["geomc/linalg/Ray.h: Ray::at_distance, at_multiple, project, dist2, resized, operator-", "geomc/linalg/AffineTransform.h: operator*(AffineTransform, Ray), operator/(Ray, AffineTransform)"]}
{"id": "C56", "title": "Quadratic equations", "statement": "quadratic_solve returns false exactly when the equation has no real root or all three coefficients are zero; otherwise it returns two numbers that are precisely the roots of a x^2 + b x + c (both equal when there is one), including for a = 0, b = 0 and c = 0, and a (x - r0) (x - r1) is the polynomial when a is not zero.", "quantifier": "all real coefficients", "why_tests_cant": "A continuum of coefficients with degenerate cases at a = 0, q = 0 and double roots.", "anchors": ["geomc/function/Utils.h: quadratic_solve"]}
{"id": "C57", "title": "Interpolation", "statement": "mix goes linearly from a to b. interp_linear over any number (at least one) of axes is the multilinear interpolant of the 2^dim grid values: it equals the grid value at each corner and stays within the range of the grid values inside the cell; for zero axes it reads beyond the array. interp_cubic passes through the two middle values with the central differences as slopes, reproduces quadratics exactly, and in any number of dimensions is the tensor product of these weights, taking the grid values at the corners of the middle cell.", "quantifier": "all dimensions, grid values and positions", "why_tests_cant": "Recursion over an arbitrary number of dimensions; block offsets could be transposed without symmetric tests noticing.", "anchors": ["geomc/function/Utils.h: mix, interp_linear, interp_cubic"]}
{"id": "C58", "title": "Angles, remainders, snapping and clamping of reals", "statement": "angle_to returns the shortest signed turn, in [-pi, pi], congruent to the difference of the angles; positive_mod returns the remainder in [0, b) for positive b (for negative b it lies in (b, 0] and is negative); snap returns the least multiple of b at or above a for positive b (for negative b it rounds down); clamp returns the nearest point of the interval (the lower bound if crossed); degrees and radians are inverse; floor_div and ceil_div are the rounded quotients.", "quantifier": "all real angles, numbers and divisors", "why_tests_cant": "Wrap-around and ties are measure-zero cases of continuous inputs.", "anchors": ["geomc/function/Utils.h: angle_to, positive_mod, snap, clamp, radians, degrees, floor_div, ceil_div"]}
{"id": "C59", "title": "Legendre polynomials", "statement": "For every order n, legendre(n, x) is the Legendre polynomial: the n-th derivative of (x^2-1)^n/(2^n n!) (Rodrigues' formula), equal to 1 at x = 1, even or odd with n, orthogonal on [-1, 1] with squared norm 2/(2n+1); legendre_integral(n, x) is its integral from -1 to x; legendre(l, m, x) for 0 <= m <= l and |x| <= 1 is (-1)^m (1-x^2)^(m/2) times the m-th derivative of the polynomial of order l, and legendre(l, 0, x) = legendre(l, x). For m > l, where the associated polynomial is zero, the function returns the non-zero value for l = m + 1 instead.", "quantifier": "all orders and sub-bands, all real x", "why_tests_cant": "The recurrences run over unboundedly many orders; sampled values of low orders do not show that every order is right.", "anchors": ["geomc/function/Basis.h: legendre(n, x), legendre(l, m, x), legendre_integral"]}
{"id": "C60", "title": "Chebyshev polynomials", "statement": "chebyshev(1, n, cos t) = cos(n t) and chebyshev(2, n, cos t) sin t = sin((n+1) t) for every order n and angle t, and with the corresponding hyperbolic identities for every other real argument.", "quantifier": "all orders, all real arguments", "why_tests_cant": "The recurrence runs over unboundedly many orders.", "anchors": ["geomc/function/Basis.h: chebyshev"]}
{"id": "C61", "title": "Spline paths", "statement": "For every list of knots, Path::eval passes through knot k at t = k, is twice continuously differentiable over its whole domain with velocity at each knot equal to the knot's tangent and zero acceleration there, lies between the points of the two neighbouring tangent lines within a segment, continues the first and last tangent line outside, and appending a knot leaves the curve up to the previous last knot unchanged. It is defined exactly for -1 < t < 2^64: for t <= -1, which the code means to serve by extrapolation, converting t to an unsigned index is undefined behaviour.", "quantifier": "all knot lists, all real parameters, all dimensions", "why_tests_cant": "Smoothness at every knot and the domain of definedness are statements about all real parameters.", "anchors": ["geomc/function/Path.h: eval, appendKnot, ease"]}
{"id": "C62", "title": "Zonal harmonics", "statement": "For every number of bands and every coefficient: eval(x) is the sum of coefficients times Legendre polynomials, its integral over the sphere is 4 pi coeff(0); generate_lambertian and generate_spot store the Legendre coefficients of max(0, x) and of a cap; diffuse(1) changes nothing, diffuse(0) is the identity of convolve, diffuse counts add. Violations: generate_lambertian(1) fills two bands; dot and convolve read out of bounds when the other function has fewer bands; dot is not the inner product over the sphere; convolve is off by sqrt(4 pi/(2 l+1)) per band from the convolution; project stores wrong coefficients and discards the previous ones; normalize does not make the integral 1 and reads out of bounds with one band.", "quantifier": "all band counts, all real coefficients, orders, angles and exponents", "why_tests_cant": "The coefficients come from recurrences over unboundedly many bands; integrals over the sphere cannot be checked by sampling.", "anchors": ["geomc/function/SphericalHarmonics.h: ZonalHarmonics::eval, generate_lambertian, generate_spot, dot, convolve, diffuse, project, normalize"]}
{"id": "C63", "title": "Spherical harmonic basis functions", "statement": "For every band l and sub-band m with |m| <= l, spherical_harmonic_coeff is the normalised real spherical harmonic built from the associated Legendre function by Rodrigues' formula; the basis functions are orthonormal under integration over the sphere; the batch Legendre evaluation stores exactly the column P(l,m) in (l,m) and (l,-m) for every band, touches nothing else, and writes out of bounds for a column beyond the bands.", "quantifier": "all bands and sub-bands, all points of the sphere", "why_tests_cant": "Orthonormality is a statement about integrals of infinitely many functions; the recurrence must be right for every band.", "anchors": ["geomc/function/SphericalHarmonics.h: spherical_harmonic_coeff", "geomc/function/Basis.h: legendre(SphericalHarmonics*, m, x)"]}
{"id": "C64", "title": "Functions in the spherical harmonic basis", "statement": "For every number of bands and every coefficient: eval is the sum of coefficients times basis functions, by angles or by any non-zero direction vector of any length; project adds val times each basis function to its coefficient; basis(d).dot(f) = f.eval(d); dot is the integral of the product; each coefficient is the integral of the function times its basis function; the integral of the function is coeff(0) sqrt(4 pi); negation, scaling, division and += act on values (a longer right hand side is truncated); a function built from a zonal one has the same values. Violations: normalize never changes the integral; += k adds k/sqrt(4 pi); convolve does not integrate to the product of the integrals; ZonalHarmonics(sh) takes the root of a negative number; the constructor with a new axis changes the integral; a static band count larger than the zonal function's reads out of bounds.", "quantifier": "all band counts, all real coefficients, all directions", "why_tests_cant": "Claims about integrals and values over the whole sphere for unboundedly many bands.", "anchors": ["geomc/function/SphericalHarmonics.h: SphericalHarmonics, ZonalHarmonics(sh)"]}
{"id": "C65", "title": "Sphere queries", "statement": "For a sphere of non-negative radius in any dimension: contains is true exactly for the points at distance at most r from the center; convex_support returns a point of the ball that is extreme in the given direction (no number exactly for the zero direction); sdf is the distance to the nearest surface point, negated inside; project returns the nearest surface point (no number exactly at the center); normal is the unit vector from the center; bounds is the smallest enclosing box; intersect(ray) returns exactly the interval of ray multiples inside the ball for every non-zero direction. Violations proved: intersects(Sphere) is true only if this sphere contains the other's center, so every overlap without that is reported as disjoint; intersects(Rect) ignores the center (it measures from the point (r,...,r)) and for every radius and box some center gives a wrong answer; a ray with zero direction inside the sphere yields the empty interval.", "quantifier": "all dimensions, centers, radii, points, directions, rays and boxes", "why_tests_cant": "nearest-point, support and interval claims quantify over every point of an infinite set", "anchors": ["geomc/shape/Sphere.h:Sphere::contains,intersects,convex_support,sdf,project,normal,bounds,intersect"]}
{"id": "C66", "title": "Plane queries and transforms", "statement": "Plane(n, p) is the plane through p perpendicular to n with unit normal (no number exactly for zero n); from_simplex passes through all N given points, in two and three dimensions exactly when they are in general position; distance/sdf is the signed distance to the plane, contains the half-space behind it, project and origin the nearest points of the plane; contains(shape) holds exactly if the whole shape is behind the plane; intersects(shape) for a convex shape holds exactly if the plane meets the shape and part of the shape is strictly in front. Violations proved: from four dimensions on from_simplex yields no number for some points in general position; a shape touching the plane from behind is reported as not intersecting although it meets it; intersects(Sphere) is true exactly when the sphere lies in front (distance >= r) instead of when |distance| <= r; intersects(hull) is always false; transforming a plane is right exactly if the image of the origin has no component along the new normal, so a translation moves the plane the opposite way.", "quantifier": "all dimensions, planes, points, convex shapes with a correct support function, spheres, point lists and invertible affine transforms", "why_tests_cant": "claims quantify over all points of planes and shapes and all transforms", "anchors": ["geomc/shape/Plane.h:Plane::Plane,from_basis,from_simplex,distance,contains,project,origin,apply,apply_inverse,intersects"]}
{"id": "C67", "title": "Capsule queries", "statement": "For a capsule with any two end points (also equal ones, where the code divides zero by zero) : contains is true exactly for the points within the radius of the segment; for non-negative radius, in two or more dimensions sdf is the distance to the nearest surface point, negated inside; convex_support returns an extreme point for every direction, including zero; bounds is the smallest enclosing box; intersects(Sphere) is true exactly if capsule and ball share a point.", "quantifier": "all dimensions, end points, radii, points, directions and spheres", "why_tests_cant": "nearest-point, support and overlap claims quantify over every point of an infinite set", "anchors": ["geomc/shape/Capsule.h:Capsule::contains,sdf,convex_support,bounds,intersects"]}
{"id": "C68", "title": "Cylinder queries", "statement": "For a cylinder with distinct end points and non-negative radius: contains is true exactly for the points of the solid that are not on the cap plane at p1 (violation: the whole cap at p1 is rejected); sdf is the distance to the nearest point of the solid (violation: it is 0 at every interior point rather than negative); off the axis, project returns a nearest surface point, and on the axis project and normal divide by zero; normal is a unit vector, has the whole cylinder behind it at the projection and points along the line from the projection to the point, except (violation) for every point both beyond p1 and outside the radius, where it never does; bounds is the smallest enclosing box; convex_support returns an extreme point, and divides by zero exactly for directions along the axis; ray intersection is exactly the set of multiples inside, except (violation) for a ray running along the wall, where it is empty.", "quantifier": "all dimensions, end points, radii, points, directions and rays", "why_tests_cant": "nearest-point, support and ray claims quantify over every point of an infinite set", "anchors": ["geomc/shape/Cylinder.h:Cylinder::contains,sdf,project,normal,bounds,convex_support,intersect"]}
{"id": "C69", "title": "Default shape functions", "statement": "The functions shapes inherit are right if the shape's own are: Convex::bounds is the smallest enclosing box if convex_support is right along the coordinate axes; SdfEvaluable::contains is exact if sdf is the signed distance; for a closed convex shape with exact contains and nearest-point project, Projectable::sdf is the signed distance (distance outside, negated radius of the largest inner ball inside), clip returns the nearest point of the solid, and normal is a unit vector that carries the projection to the point over the signed distance, dividing by zero exactly for points that project to themselves.", "quantifier": "all dimensions, shapes (sets of points), shape functions meeting the hypotheses, and points", "why_tests_cant": "the claims quantify over every shape and over every point of an infinite set", "anchors": ["geomc/shape/Shape.h:Convex::bounds,SdfEvaluable::contains,Projectable::sdf,normal,clip"]}
{"id": "C70", "title": "Dilated shapes", "statement": "For a closed convex shape and a dilation k >= 0: sdf is the signed distance of the set of points within k of the shape if the wrapped sdf is the signed distance; contains is true exactly in the interior (violation: every surface point is rejected); convex_support is extreme, dividing by zero exactly for the zero direction; bounds is tight if the wrapped bounds are; project gives the nearest surface point, dividing by zero exactly for points the wrapped shape projects to themselves; the normal agrees with projection and distance. Violation: dilate(Plane) moves the plane the wrong way, so the plane itself falls outside. roundrect has exactly the extents of the box and a radius at most the one asked for, equal to it if it fits.", "quantifier": "all dimensions, closed convex shapes, wrapped functions meeting their contract, dilations, points, directions, planes and boxes", "why_tests_cant": "the claims quantify over every shape and over every point of an infinite set", "anchors": ["geomc/shape/Dilated.h:Dilated,dilate(Plane),roundrect"]}
{"id": "C71", "title": "Extruded shapes", "statement": "For a base shape whose own functions meet their contracts, the extrusion over a height range contains exactly the points above/below the base within the range; sdf() is the exact signed distance; project() a nearest surface point; normal() a unit vector leading from a nearest surface point over the signed distance; convex_support() is extreme in every direction, including along the axis and zero; bounds() is the tight box; intersect(ray) is the exact parameter interval also for rays along the axis or parallel to the base.", "quantifier": "Every base shape, height range with lo <= hi, point, direction, ray and number of base dimensions", "why_tests_cant": "The case split on cap/wall/edge and degenerate rays covers a continuum of positions, for any base shape.", "anchors": ["geomc/shape/Extruded.h: Extruded::contains, sdf, normal, project, convex_support, bounds, intersect"]}
{"id": "C72", "title": "Frustums", "statement": "A frustum over a base shape at height 1 contains exactly the points whose section is the base scaled by the height, within the height range (its negative part left out if it spans 0, the tip included); convex_support() is extreme in every direction and bounds() the tight box, for heights above, below or spanning 0. intersect(ray) is exact for a ray whose direction points outside the cone; for one pointing into the cone only from positions on the near side, from every other position (e.g. inside the frustum) it reports a miss. For vertical rays, and others whose point nearest the origin has height 0, the answer ignores the ray's position; rays through the tip are tested against the wrong base point; rays in the plane of the tip are always reported to hit at a point that is never in the frustum.", "quantifier": "Every base shape meeting its own contracts, height range with lo <= hi, point, direction, ray and number of base dimensions", "why_tests_cant": "Exactness of the projective ray mapping needs every ray direction and origin; the failing cases are open sets of rays or degenerate families.", "anchors": ["geomc/shape/Frustum.h: Frustum::contains, intersect, convex_support, bounds, clipped_height"]}
{"id": "C73", "title": "Transformed shapes are exact images", "statement": "A shape wrapped in an affine transform is the image of the shape under that transform: containment holds exactly for the points of the image; the support point is the extreme point of the image in every non-zero direction; the axis-aligned bounds hold the image and touch it on every side; the ray interval is exactly the parameters at which the ray is in the image; oriented_bounds holds it; for boxes the specialised functions meet the same statements. xf * s and s *= xf transform the already transformed shape, s / xf and s /= xf undo the transform. Oriented<Rect>::volume() violates its contract: every merely translated box of two or more dimensions and positive extents is given volume 0.", "quantifier": "every dimension, transform with a true inverse, base shape given by correct functions, point, direction, ray and box", "why_tests_cant": "Depends on arbitrary transforms (including shears, mirrors and non-uniform scales) and arbitrary base shapes; tests cover a few rotations.", "anchors": ["geomc/shape/Oriented.h:Oriented", "geomc/shape/Oriented.h:Oriented<Rect>", "geomc/shape/Oriented.h:operator*"]}
{"id": "C74", "title": "Simplices are the convex hull of their vertices", "statement": "Inserting a vertex appends it while fewer than N+1 are present and otherwise does nothing; excluding vertex i keeps all others in order; equality compares the used vertices; multiplying or dividing by a transform transforms the hull or its preimage; the standard simplex is {x >= 0, sum x <= 1}; convex_support returns an extreme point. For N+1 affinely independent vertices contains() is exact in every dimension and intersect(ray) loses no part of the intersection and is exact unless the answer is a single point. Volume is the edge determinant over N! for N <= 3; measure is length or area for segments and space triangles. Violations proved: a collinear triangle makes contains divide by zero although false is documented; a ray beside a triangle can be reported as a one-point hit; a simplex of N vertices never reports a ray hit because the solution is read past its end; is_facing ignores a coordinate of a triangle in space; volume of the standard simplex is zero for N >= 4; measure is negative for some full simplices and zero for orthogonal ones.", "quantifier": "all dimensions, vertices, points, directions, rays, transforms, and pivoting comparisons", "why_tests_cant": "no finite set of simplices covers all dimensions and degenerate positions; each claim is for all points and rays", "anchors": ["geomc/shape/Simplex.h:Simplex", "geomc/shape/Simplex.h:trace_simplex", "geomc/linalg/LUDecomp.h:linear_solve"]}
{"id": "C75", "title": "Clipping, projecting to and signed distance of a simplex", "statement": "In two and three dimensions, for affinely independent vertices (1 to N+1 of them) and every point p: Simplex::clip returns the closest point of the simplex and, through its output parameter, the smallest sub-simplex containing it; project returns the same for a simplex without volume, and the closest point of the surface for one with N+1 vertices, also from inside; sdf is the signed distance (negative exactly inside) or, without volume, the distance; normal is perpendicular to the face projected to and a positive multiple of p minus its projection. Violations: the normal of a point inside points into the simplex, and it is not of unit length.", "quantifier": "all affinely independent simplices of 1..N+1 vertices, N = 2, 3, all points, over exact reals", "why_tests_cant": "The search recurses over all faces with re-rooted bases and pruning by facing; tests sample a few points and simplices, and not each of the Voronoi regions of each shape.", "anchors": ["geomc/shape/shapedetail/SimplexProject.h:SimplexProjection", "geomc/shape/Simplex.h:clip", "geomc/shape/Simplex.h:project", "geomc/shape/Simplex.h:sdf", "geomc/shape/Simplex.h:normal"]}
{"id": "C76", "title": "Convex intersection test by support functions", "statement": "Intersector::intersects and intersects(a, b) on two convex shapes given by their support functions, in exact arithmetic: a miss is always right, in every dimension, and the stored separation_axis is then a nonzero vector v such that every point of the second shape is at least |v|^2 farther along v than every point of the first; shapes with a common point are always reported as intersecting whenever there is an answer; in two and three dimensions, for convex shapes with no common point and a nonzero starting axis, the query answers, and either reports a miss or has run into the iteration limit; with total support functions the query always ends within the limit. Violated: the iteration limit is reachable in two dimensions (a twelve-vertex polygon apart from a point is reported as intersecting); touching spheres whose first difference point is the origin have no answer (NaN); a query can leave a zero separation_axis, after which the next query with a sphere has no answer; a miss in the first iteration leaves was_degenerate from an earlier query.", "quantifier": "All dimensions for misses, N = 2 and 3 for hits; all shapes given by support functions, all starting axes, all uninitialised values in the projection; for the violations all eps in (0, 4^-11], all sphere pairs tangent along x, all sphere queries after a zero axis", "why_tests_cant": "Correctness of every miss and every early hit ranges over all pairs of convex sets; the iteration limit is reached only by specially built shapes", "anchors": ["geomc/shape/Intersect.h:Intersector", "geomc/shape/Intersect.h:intersects", "geomc/shape/shapedetail/SimplexProject.h:SimplexProjection"]}
{"id": "C77", "title": "Intersection tests of transformed boxes", "statement": "Oriented<Rect>::intersects(Rect), Rect::intersects(Oriented<Rect>) and Oriented<Rect>::intersects(Oriented<Rect>) in two and three dimensions, for invertible transforms with a correct stored inverse and nonempty boxes, in exact arithmetic: boxes with no common point are always reported as not intersecting; boxes whose interiors share a point are always reported as intersecting; a negative answer means that some hyperplane has the two boxes on its two sides. Violated: boxes that touch only at a face of the transformed box are missed although they share points, while touching a face of the other box counts, so the answer depends on whether a box is passed as a Rect or as an Oriented with the identity; a box that is empty because its corners are exchanged is treated like the nonempty box.", "quantifier": "All boxes and all invertible affine transforms in two and three dimensions (shears and scales included); the separation claim for all boxes", "why_tests_cant": "Needs the separating axis theorem for every pair of parallelepipeds, including degenerate and parallel edges; tests sample a few orientations", "anchors": ["geomc/shape/shapedetail/SeparatingAxis.h:RectIntersector", "geomc/shape/shapedetail/SeparatingAxis.h:RectAxisHelper", "geomc/shape/Oriented.h:intersects", "geomc/shape/Rect.h:intersects"]}
{"id": "C78", "title": "Random samples lie in their region; permutations are uniform", "statement": "permute() rearranges its argument, and each of the n! arrangements of distinct elements comes from exactly one sequence of choices. Sampler::solidball() returns the first random point of the cube inside the ball; unit() its direction; shell, box, cap, cap(dir), solidcap, disk, oriented_disk and arc return samples inside the region asked for, and box, arc, cap and shell(0, r) draw them with the uniform distribution's quantiles. The code violates: solidball(radius) scales twice, so samples crowd the center; shell and solidcap never sample an inner layer when the minimum radius is positive; cap(dir) and solidcap sample the opposite side when dir is the negative z axis; solidarc swaps length and angle; unit() divides by zero for the center.", "quantifier": "every sequence of random numbers in [0,1], every dimension, every array length and element type, all radii, angles and directions", "why_tests_cant": "a test draws finitely many samples; membership must hold for every stream of random numbers, and uniformity is a statement about all outcomes", "anchors": ["geomc/random/RandomTools.h:permute", "geomc/random/RandomTools.h:Sampler"]}
{"id": "C79", "title": "Tree container: structure, insertion, splitting, erasure and search", "statement": "Every tree built by inserting nodes and items, splitting leaves, erasing childless children and assigning values is well formed: walking a node from begin() to end() lists exactly the nodes whose parent it is, once each, in number node_count(); every node descends from the root; the items of a leaf are walked once each and counted; the count of an inner node is the sum of its children's; each item belongs to exactly one leaf. Each operation has exactly its documented effect on children, items, values and counts and refuses the documented invalid calls. From the root find_parent() finds the leaf owning an item, and for a root whose children are childless query() and flatten() behave as documented. Violations: with deeper trees, the items range of an inner node is wrong, items and nodes are not in the documented order, query() stops at the first grandchild, find_parent() from an inner node misses items, operator== compares the nodes in the order they are kept in, so that equal trees may compare unequal and trees of different shapes equal; flatten() of a non-root node removes nothing, clear() and erase() of nodes with items are undefined, the range constructor counts one item, split() unsorts items.", "quantifier": "all element types, all trees reachable by any sequence of operations, all positions, predicates and values", "why_tests_cant": "Well-formedness is an invariant of unbounded histories of mutation over linked lists; tests only build a few trees.", "anchors": ["geomc/Tree.h:Tree", "geomc/Tree.h:Subtree::insert_child_node", "geomc/Tree.h:Subtree::insert_item", "geomc/Tree.h:Subtree::split", "geomc/Tree.h:Subtree::erase", "geomc/Tree.h:Subtree::flatten", "geomc/Tree.h:Subtree::clear", "geomc/Tree.h:QueryIterator", "regression/tree.cpp"]}
{"id": "C80", "title": "Lattice of bins: neighbourhood queries find every item of the region", "statement": "BinLatticePartition puts each item into the cell of the lattice that contains its location; size() is the number of items; query(pt, radius) visits each item whose bin meets the region exactly once, in any order the hash map keeps its entries and after any history of insertions, erasures and rehashes. Every item x with pt - r <= x < pt + r on all axes is visited, and every visited item is less than a cell away from the region. Violation: the region is treated as open above, so an item at exactly pt + r on some axis is missed whenever pt + r is a cell boundary.", "quantifier": "all cell sizes > 0, dimensions, points, radii >= 0, histories and iteration orders of the map", "why_tests_cant": "The guarantee ranges over all real locations, block shapes and hash orders; tests sample a few.", "anchors": ["geomc/shape/BinLatticePartition.h:BinLatticePartition", "geomc/shape/BinLatticePartition.h:region_iterator", "geomc/shape/BinLatticePartition.h:query", "geomc/shape/BinLatticePartition.h:binOf"]}
{"id": "C81", "title": "Dense and diagonal matrices: storage, copies, sums and equality", "statement": "A matrix of either layout behaves as its table of elements: writing an element changes that element only; a transposed view shows and changes the swapped element; set_zero, *= and scalar multiples, sums, differences and mtxcopy between matrices of any kinds and layouts give the elementwise result, change nothing outside the destination, and may have the destination as an operand; mtxcopy throws exactly when the shapes differ; operator== is true exactly when shapes and elements agree, for dense, diagonal and permutation matrices; diagonal operands give the same results into dense and diagonal destinations. Violations: set_identity and new matrices give the identity only if rows <= columns + 1 (stored by rows), or the matrix is square, has one row, or is 2x1 (stored by columns); copying a matrix from its own transposed view does not transpose it; constructing a fixed-size matrix from a larger one writes past its storage; the array constructor, documented as row-major, takes the array in column-major order for matrices stored by columns; a fixed-size diagonal matrix given larger dimensions, documented as ignored, writes past its storage; iterating over an empty matrix stored by columns divides by zero.", "quantifier": "all fields of elements, memories, base addresses, shapes, both layouts and all kinds of operands", "why_tests_cant": "Shapes, layouts, operand kinds and aliasing combine without bound; the repository's tests use a few small matrices.", "anchors": ["geomc/linalg/mtxtypes/SimpleMatrix.h:SimpleMatrix", "geomc/linalg/mtxtypes/DiagMatrix.h:DiagMatrix", "geomc/linalg/mtxdetail/MatrixCopy.h:mtxcopy", "geomc/linalg/mtxdetail/MatrixArithmetic.h:_ImplMatrixAdd", "geomc/linalg/mtxdetail/MatrixArithmetic.h:_ImplMatrixScale", "geomc/linalg/mtxdetail/MatrixGlue.h:MatrixDimensionMatch"]}
{"id": "C82", "title": "Accuracy of the floating-point helpers", "statement": "For float, double and long double (IEEE numbers of any precision and exponent range): diff_of_products and sum_of_products, whenever they return a number and c*d is zero or not tiny (at least 2^(emin+2p-1)), are within 1.5 units in the last place of the exact value, as documented, and they do return a number if both products are at most an eighth of the largest power of two; multiply_add is correctly rounded; mix(0,a,b) = a and mix(1,a,b) = b exactly. Violations: with a tiny c*d the error of diff_of_products in double can exceed 1.7 units; if a product overflows the result may be NaN although the exact value is zero; positive_mod of floating-point numbers can return a negative number (1.7, 0.1) or b itself (-2^-60, 1).", "quantifier": "all IEEE formats, all finite arguments", "why_tests_cant": "The bound is over all bit patterns of four arguments; cancellation and binade boundaries are rare in samples.", "anchors": ["geomc/function/functiondetail/UtilDetail.h:_ImplFMADot", "geomc/function/Utils.h:diff_of_products", "geomc/function/Utils.h:sum_of_products", "geomc/function/Utils.h:mix", "geomc/function/Utils.h:positive_mod"]}
{"id": "C83", "title": "Storage policies: who shares an array, who owns it, and how long it lives", "statement": "Over any number of storage objects of every policy and size, and arrays of the caller, every program of constructions, copies, moves, assignments, destructions, reads and writes behaves as specified: copies of dynamically sized shared storage and of wrapped storage name the same array, copies of unique storage and of any storage of fixed size are separate arrays; size() is as constructed; an array is in memory exactly as long as an object owning it exists, so nothing leaks and no owner ever sees a dead array; the programs that fault are exactly those in which the caller reads or writes out of range, uses a wrapper of a dead array, or gives too few elements. Violations: storage of fixed size N built from n elements reads N of them if shared and writes n of them if unique, without a check; a moved-from SizedStorage keeps its size without an array; wrapped storage built from a size alone reports a fixed size without an array.", "quantifier": "every program over any number of objects of all storage types, every element type and size", "why_tests_cant": "Ownership and lifetime depend on the history of copies, moves and destructions of all objects; tests follow a few histories, and a premature release or leak often goes unnoticed.", "anchors": ["geomc/Storage.h: Storage, SizedStorage, UniqueStorage, WrappedStorage, GenericStorage, Dimension, StoragePolicy"]}
{"id": "C84", "title": "Solving quadratic equations in floating point", "statement": "For IEEE numbers of any precision of at least 8 bits (float, double, long double) whose products b^2 and 4ac neither overflow nor underflow: quadratic_solve returns true exactly when the equation with the given coefficients, taken as exact, has a real solution and is not of the form c = 0, so rounding never changes the answer; when the discriminant is 0 or a normal number and the exact roots are 0 or in the normal range, the two results are the two exact roots, each with relative error at most 5 * 2^-precision; with a = 0 both results are equal and approximate the solution of the linear equation; with a double root the two results are equal. Outside that range the documented behaviour fails: 2^-540 (x^2 + x + 1) = 0 is given two solutions, 2^600 x^2 + x + 2^600 = 0 succeeds with NaN, and x^2 + 2^600 x + 1 = 0 gives minus infinity and zero although both solutions are ordinary numbers.", "quantifier": "all floating-point formats, all coefficients in the stated range", "why_tests_cant": "Wrong decisions need coefficients whose discriminant is within rounding of zero, which random tests hardly ever hit, and an error bound is a statement about all coefficients.", "anchors": ["geomc/function/Utils.h:quadratic_solve", "geomc/function/Utils.h:diff_of_products"]}
{"id": "C85", "title": "Vectors of floating-point numbers", "statement": "For IEEE numbers of any format: dot, dist and dist2 give bit-for-bit the same number when their arguments are exchanged, infinities and NaN included; the error of dot is at most ((1+u)^N - 1) times the sum of the sizes of the products, plus N (1+u)^N times half the least positive number, u = 2^-precision; for vectors whose squares neither underflow nor sum to overflow, mag2 is right up to a factor (1+u)^N, mag^2 up to (1+u)^(N+2), and unit gives elements of the right signs whose squares are right up to (1+u)^(N+4), so its squared length is 1 up to that factor; dist2 and dist^2 are right up to (1+u)^(N+2) and (1+u)^(N+4) when the computed difference is in that range; with_length gives elements of the right signs whose squares are right up to (1+u)^(N+6), and keeps the zero vector; the number angle_to passes to the arc cosine differs from the cosine of the angle by at most (1+u)^(3N+8) - 1 plus N (1+u)^N times half the least positive number; the number angle_to passes to the arc cosine is always a number in [-1,1], whatever the vectors, and is 1 (angle 0) when either vector is zero; each element of a cross product is within 1.5 units in the last place, and exactly 0 where the exact one is 0. Outside that range the documented length fails: unit of (2^600, 0) is the zero vector, unit of (2^-600, 0) is (infinity, NaN), and with_length turns (2^-600, 0) into the zero vector.", "quantifier": "all floating-point formats, dimensions and vectors", "why_tests_cant": "Error bounds and symmetry are statements about all vectors; the failures need magnitudes tests do not use.", "anchors": ["geomc/linalg/vecdetail/VecBase.h:dot", "geomc/linalg/vecdetail/VecBase.h:mag", "geomc/linalg/vecdetail/VecBase.h:unit", "geomc/linalg/vecdetail/VecBase.h:angle_to", "geomc/linalg/vecdetail/VecBase.h:with_length", "geomc/linalg/vecdetail/Vec3.h:cross"]}
{"id": "C86", "title": "Floating-point clamp, mix, snap and angles", "statement": "For IEEE numbers of any format with at least 8 bits, u = 2^-precision: clamp to numbers lo <= hi returns a number between them for every v, infinities and NaN included (NaN gives hi), and v itself if v is between; clamp of a vector does so for every element that is not NaN; mix with a parameter in [0,1] is within 4u times the larger of its two numbers (plus the least normal number) of the exact value, and interp_linear over d axes within ((1+4u)^d - 1) times the largest of its values; ceil_div, floor_div and snap return the ceiling, floor and next multiple, up to an error of one roundoff of a, and snap leaves multiples of b as they are; positive_mod is congruent to a modulo b, and in [0,b], up to 4u(|a|+b); angle_to is the difference of the angles modulo a turn, and at most half a turn, up to 16u(|a|+|b|+turn). The documented exact claims fail for doubles: vector clamp leaves NaN, mix(t,a,a) may exceed a, mix may decrease as the parameter increases, snap(a,b) may be less than a or more than a+b, and angle_to may return more than a whole turn for large angles.", "quantifier": "all floating-point formats, numbers and parameters", "why_tests_cant": "Rounding behaviour depends on every bit of the arguments; the failing arguments are rare and the bounds hold for all.", "anchors": ["geomc/function/Utils.h:clamp", "geomc/function/Utils.h:mix", "geomc/function/Utils.h:interp_linear", "geomc/function/Utils.h:ceil_div", "geomc/function/Utils.h:snap", "geomc/function/Utils.h:positive_mod", "geomc/function/Utils.h:angle_to", "geomc/linalg/vecdetail/VecBase.h:clamp"]}
{"id": "C87", "title": "Random floating-point numbers of a range", "statement": "rand<float>() and rand<double>(), for every generator of words, are numbers between 0 and 1. For every IEEE format: rand(hi) is a number between 0 and hi, whatever the sign of hi, and is hi times the unit draw up to one rounding; rand(lo, hi) of bounds far from overflow is a number that never passes lo, passes hi by at most 4 u max(|lo|,|hi|) (u = 2^-precision), and is lo + r (hi - lo) up to 8 u max(|lo|,|hi|) plus the least positive number; if hi - lo is computed exactly it is between lo and hi. In general it is not, contrary to the documentation: rand<double>(-1, 129 * 2^-60) can exceed its upper bound, and rand<double>(-2^1023, 2^1023) is always an infinity or NaN.", "quantifier": "all generators, states and bounds, all formats", "why_tests_cant": "Passing the upper bound needs one draw in 2^53 and particular bounds.", "anchors": ["geomc/random/Random.cpp:Random::rand<float>(float, float)", "geomc/random/Random.cpp:Random::rand<double>(double, double)", "geomc/random/Random.cpp:Random::rand<float>(float)"]}
{"id": "C88", "title": "Degrees, radians and cubic interpolation in floating point", "statement": "M_PI is within 2^-52 of pi. radians(x) and degrees(x) of doubles, for x zero or of size 2^-1000 to 2^1000, are x*pi/180 and x*180/pi with a relative error of at most 5/2 u (u = 2^-53); they undo each other with a relative error of at most 5 u; they are monotone wherever finite; multiples of 90 degrees up to two turns convert exactly to and from multiples of M_PI/2. Exact round trips fail in general (11 degrees come back smaller), and radians overflows for large angles (2^1023) whose value in radians is in range. interp_cubic, for every IEEE format of at least 8 bits, every dimension, point of the unit cube and 4^dim values of size at most M (clear of overflow) is a number, and differs from the tensor product of Catmull-Rom splines by at most ((5/4 + 150 u)^dim - (5/4)^dim) (M + least normal number), so 150 u M in one dimension; at the parameter 0 it returns the node's value exactly. At the parameter 1 it need not return p[2], and four equal values need not be reproduced.", "quantifier": "all doubles (angles); all formats, dimensions, parameters and values (interpolation)", "why_tests_cant": "Rounding errors depend on every bit of the arguments; the bounds hold for all, and the failures are sporadic.", "anchors": ["geomc/function/Utils.h:radians", "geomc/function/Utils.h:degrees", "geomc/function/Utils.h:interp_cubic"]}
{"id": "C89", "title": "Perlin noise: what construction builds, and the range of the noise", "statement": "Constructing a PerlinNoise<T,N> fills a table of 256 gradients and, for N > 1, a permutation of 0..255. For N > 1 each gradient has length exactly 1; for N = 1 each is the next random number scaled to [-1,1]. With the object so built, evaluating at any point whose floor fits in 64 bits gives a number between -sqrt(N)/2 and sqrt(N)/2, whatever the random numbers were; the same holds for any table of gradients not longer than 1, and the bound is attained in one dimension. Violation: for N > 1 a random point at the center of the ball is accepted and has no direction, so the construction divides by zero.", "quantifier": "All dimensions N, all sequences of random numbers, all choices of the shuffle, all points whose floor fits in 64 bits", "why_tests_cant": "The range is an extremum over all gradients and all points; sampling finds values well inside it and never a proof that none is outside", "anchors": ["geomc/function/functiondetail/PerlinDetail.h:_ImplPerlinInit::init", "geomc/function/PerlinNoise.h:PerlinNoise constructors, eval, get_grid_gradient"]}
{"id": "C90", "title": "Iterating over matrices and regions of them", "statement": "Looping from begin() to end() of a matrix that is not a SimpleMatrix gives every element once, in row-major order, and begin() + n is the n-th of them; looping over a region gives, and writing through it changes, exactly the elements of the region in row-major order. Column iterators visit the column from the top, and their arithmetic agrees with stepping. Violations: a region's upper corner is documented as the index just beyond the last element, but it is visited too, so the region of the whole matrix is read past the end of its storage, as is the region of the example in the documentation; i + n from any other position than begin() is still the n-th element of the whole matrix; the iterator before end() is one column before the last element; with rows and no columns the first column is read although there is none.", "quantifier": "Every shape, region, position and offset; every assignment of elements", "why_tests_cant": "Shapes, regions and offsets are unbounded; the position-dependent errors show only from certain positions", "anchors": ["geomc/linalg/mtxdetail/MatrixIterator.h:MtxSubsetIterator, MtxColIterator", "geomc/linalg/mtxdetail/MatrixBase.h:begin, end, region_begin, region_end, col", "geomc/linalg/Matrix.h:Matrix region iterators"]}
{"id": "C91", "title": "Rounding errors of matrix products and affine transforms", "statement": "With floating-point elements, each element of a matrix product (mul, mul_acc, matrix times vector, vector times matrix) that is a number differs from the exact sum of products by at most (1+u)^(n+1) - 1 times the sum of the absolute values of the terms, plus n least numbers lost to underflow; it is a number unless the terms are huge; and it is exact for matrices of integers whose terms add up to at most 2^prec. The transpose of a product is the product of the transposes bit for bit. Multiplying by the identity keeps every number, but an infinite element turns the others of its row into NaN. A translation (scale) of a point is p + t (s * p) rounded once, its inverse p - t ((1/s) * p); directions are not translated; transformed points, directions and normals and composed transforms obey the same error bound. The inverse of a translation undoes it when the sums are exact, and otherwise may lose the point altogether; applying a composed transform is not the same as applying the two in turn (it can give 0 in place of 1); translating a point with an infinite coordinate makes the others NaN.", "quantifier": "every floating-point format, every matrix size, every transform and point", "why_tests_cant": "the bound must hold for every combination of elements and every size; a sample of products cannot show the worst case", "anchors": ["geomc/linalg/mtxdetail/MatrixMult.h:_ImplMtxMul", "geomc/linalg/AffineTransform.h:apply,apply_inverse,apply_vector,apply_normal,translation,scale"]}
{"id": "C92", "title": "Boxes of floating-point numbers", "statement": "For boxes (Rect) whose extremes are IEEE floating-point numbers: contains, is_empty, union, intersection, spanning_corners and clip give exactly the answer of the order on the numbers, infinite extremes included, and the union of the default box with a box of numbers is that box. A box that was translated, scaled, dilated, or added to another (Minkowski sum) contains the rounded image of every point of the original, although all extremes are rounded and may overflow. The center lies in the box and near the middle when the sum of the extremes does not overflow; dimensions have one rounding error and are zero only when the extremes coincide; a box made from a center contains it. unmap takes points of the box into [0,1] and the extremes to exactly 0 and 1; remap takes 0 and 1 to exactly the extremes. The interval of parameters of a ray starting in the box contains 0. Violated: a point of NaNs is contained in every box, the center of a box whose extremes sum beyond the largest number is infinite and outside the box, and remap takes some parameters of [0,1] outside the box.", "quantifier": "all precisions and exponent ranges (at least 3 bits), all dimensions, all boxes and points of floating-point data incl. infinities where stated", "why_tests_cant": "Rounding and overflow depend on the exact bit patterns of both extremes and the argument; tests sample few of them, and an edge case like remap leaving the box shows for few parameters.", "anchors": ["geomc/shape/Rect.h:Rect::contains", "geomc/shape/Rect.h:Rect::center", "geomc/shape/Rect.h:Rect::remap", "geomc/shape/Rect.h:Rect::unmap", "geomc/shape/Rect.h:Rect::clip", "geomc/shape/Rect.h:Rect::intersect"]}
{"id": "C93", "title": "Boxes of machine integers", "statement": "For boxes (Rect) of signed integers of at least the width of int: dimensions, center, translation, scaling, dilation, set_dimensions and the constructors from a center or corner are defined exactly when every intermediate result is a value of the type, and then give the exact result; moved boxes contain exactly the moved cells; a defined volume is the number of cells of the box; a box made from a center and positive lengths contains the center and has these lengths. For unsigned integers the results are exact while nothing wraps. Violated: dimensions and volume of the default (empty) box are undefined behaviour, center is undefined for boxes of large coordinates although the center is representable, the volume of an empty box is 0 or undefined depending on the order of the axes, and for unsigned types a center can lie below its box, a box made from a center near 0 does not contain the center, and a box moved over the end becomes empty.", "quantifier": "all widths, all numbers of axes, all boxes and vectors of values of the type", "why_tests_cant": "Overflow shows only near the ends of the range, in combinations of several coordinates, and signed overflow may go unnoticed in a test run.", "anchors": ["geomc/shape/Rect.h:Rect::dimensions", "geomc/shape/Rect.h:Rect::center", "geomc/shape/Rect.h:Rect::volume", "geomc/shape/Rect.h:Rect::from_center", "geomc/shape/Rect.h:Rect::set_dimensions"]}
{"id": "C94", "title": "Rasters and grid iterators in machine integers", "statement": "With signed index types of fixed width: when the number of values of a raster fits in index_t, the offset of every sample is computed without overflow under every edge behaviour and lies in the array, and the size of a new raster is computed exactly when it fits. Undefined: the mirror behaviour at the lowest coordinate, the periodic one at the last sample of an axis longer than half the range; and on an axis of more than 2^31 + 1 samples the mirror behaviour maps a sample of the raster to a negative index. The loop over a grid region runs without overflow exactly as in exact arithmetic when no axis ends at the greatest value of the coordinate type, and is undefined otherwise. The distance between two iterators is exact when the volume fits in index_t; advancing one is exact when the volume fits in the coordinate type and undefined when it does not, although index_t could hold the position.", "quantifier": "every width, extents, channels, coordinates, edge behaviours, regions, orders and positions", "why_tests_cant": "overflow happens at the ends of the 64-bit range and for rasters and regions too large to allocate in a test", "anchors": ["geomc/function/functiondetail/RasterDetail.h:_ImplEdge::coord", "geomc/function/functiondetail/RasterDetail.h:_ImplRasterIndex::index", "geomc/function/Raster.h:Raster::index", "geomc/shape/GridIterator.h:GridIterator::increment", "geomc/shape/GridIterator.h:GridIterator::advance", "geomc/shape/GridIterator.h:GridIterator::distance_to", "geomc/shape/GridIterator.h:GridIterator::end"]}
{"id": "C95", "title": "Quaternion arithmetic and rotations in floating point", "statement": "For quaternions of floating-point numbers, every element of a product which did not overflow is within five roundings of |p||q| (plus what underflow loses) of the exact product, the product does not overflow while |p||q| is at most 2^(emax-3), and products of integers are exact while |p||q| is at most 2^prec. The conjugate is exact and undoes itself; the identity changes nothing but signs of zeros, for numbers, yet turns a vector with an infinite element into NaNs. Rotating a vector of length m by a quaternion of magnitude k (q * v or v * q) gives, when k and m are not huge, numbers within 19 units of rounding of k^2 m, plus (5 + 11 k) halves of the least positive number, of the exact rotation; its length is within twice that of k^2 m; rotating back gives k^4 v within a bound of the same kind. Even for a quaternion of magnitude exactly 1 which permutes the axes, rotation is not exact: in doubles an element of size 2^-60 beside 1 is lost and not restored by the inverse rotation, and a vector of finite elements, whose exact image is itself, becomes infinite.", "quantifier": "all quaternions and vectors of every binary floating-point format (products: 4 bits of precision or more; rotations: 8 or more)", "why_tests_cant": "rounding errors depend on all bits of seven operands; tests sample a few and compare with a guessed tolerance", "anchors": ["geomc/linalg/Quaternion.h: mult, conj, operator*(Quat, Vec), operator*(Vec, Quat), identity"]}
{"id": "C96", "title": "Spheres and half-spaces in floating point", "statement": "With every operator rounding to nearest in any IEEE format: a sphere's containment test agrees with the exact sphere whenever the squared distance differs from the squared radius by more than N+3 roundings and nothing overflows or underflows; it is monotone without any such restriction (a point no farther in any coordinate from the center of a sphere at least as large is contained too), always includes the center, and is false for any NaN. A contained point has signed distance at most 0, and the signed distance is within N+5 roundings of the distance to the center plus the radius; but a point of signed distance 0 may be judged outside. A circle of radius 2^-600 contains a point at distance 2^-540 and one of radius 2^600 a point at 2^900 (violations). The bounds contain every representable point of the exact sphere, but not every point the containment test accepts (violation). A half-space decides the side rightly unless the exact value is within the error of the dot product, its distance has a stated error, and the point a plane was made through is on it exactly, whatever was rounded.", "quantifier": "every IEEE format, dimension, sphere, plane and point (finite, or with infinite and NaN values where stated)", "why_tests_cant": "rounding errors show up only at particular values near the surface or in extreme ranges of the exponent", "anchors": ["geomc/shape/Sphere.h:bounds,contains,sdf", "geomc/shape/Plane.h:Plane,distance,contains"]}
{"id": "C97", "title": "Rays and spheres in floating point", "statement": "With every operator rounding to nearest in any IEEE format: a ray whose origin the sphere's own containment test accepts always hits the sphere, and the returned interval contains parameter 0, whatever is rounded, cancels or underflows, as long as the direction's squared length does not underflow to 0 and 4ac does not overflow; a ray whose origin is judged outside never gets an interval reaching to both sides of its origin: it is ahead if the computed dot product of the direction with the offset to the center is positive and behind if negative. Hit and miss agree with the exact line and sphere unless the line passes within a stated margin of the surface, proportional to the squared distance from the origin to the center plus the squared radius. Violations outside the guards: a direction of length 2^-600 gives a single parameter 1.5*2^600 for a ray from inside the unit circle, a ray from the center of a circle of radius 2^500 with direction 2^30 gives NaN bounds, and a ray starting 2^30 away that passes the unit circle at distance 10 is reported as a hit.", "quantifier": "every IEEE format, dimension, sphere and ray of numbers", "why_tests_cant": "rounding decides only grazing rays or extreme exponents; a test tries finitely many rays", "anchors": ["geomc/shape/Sphere.h:intersect,contains", "geomc/function/Utils.h:quadratic_solve"]}
{"id": "C98", "title": "Small determinants and inverses in floating point", "statement": "With binary floating-point elements (any precision, rounding to nearest even; u = 2^-prec), and products of elements that neither overflow nor lose bits to underflow: (1) det2x2 has a relative error of at most 3u however much cancels; (2) inv2x2 returns false exactly when the matrix has no inverse, and otherwise each element of the inverse it stores has a relative error of at most 5u, however badly conditioned the matrix, provided that element is itself in range; (3) det3x3 has an error of at most 10u times the sum of the absolute values of the three terms of the expansion along the first row; (4) inv3x3 returns false only if the exact determinant is at most 10u times the sum of the terms' sizes along the first column; if that quantity is at most k times the determinant, k <= 1/8, it succeeds and each element has a relative error of at most 2k + 5u. VIOLATED as documented ('true if the matrix is invertible, false otherwise'): in doubles, inv3x3 inverts a singular matrix of whole numbers, and refuses one of whole numbers with determinant 1, though nothing overflows or underflows; inv2x2 of 2^600 I succeeds with the zero matrix, and of 2^-540 I returns false.", "quantifier": "All precisions (prec >= 4 or 5, emax >= 3), all matrices of floating-point numbers in the stated range, and all exact inverses.", "why_tests_cant": "Cancellation depends on the exact bits of the elements; the bounds must hold for every matrix, and the failing matrices are too rare for random tests to meet.", "anchors": ["geomc/linalg/mtxdetail/MatrixDet.h: det2x2, det3x3, cofac", "geomc/linalg/mtxdetail/MatrixInv.h: inv2x2, inv3x3"]}
{"id": "C99", "title": "Cholesky decomposition in floating point", "statement": "With binary floating-point elements (any precision, rounding to nearest even; u = 2^-prec): (1) if cholesky returns true for a matrix of numbers (no infinity or NaN), then nothing has overflowed: every element of the result L is a number, L is lower triangular with a positive diagonal, and for each element of the lower triangle A[i][j] differs from (L L^T)[i][j] by at most about (j+3)u times |A[i][j]| plus the sum of |L[i][k] L[j][k]| over k < j, plus the underflow term, whatever the size and condition of the matrix; (2) if it fails first at row i, and nothing overflows there, the leading (i+1) x (i+1) part of A is within the same rounding errors of a symmetric matrix that is not positive definite; (3) only the lower triangle is read, so infinities or NaN above the diagonal do not matter. VIOLATED as documented (false if not positive definite, hence true only if positive definite): in doubles the singular matrix [7 77; 77 847] is decomposed with result true, and a positive definite matrix [1 b; b c] is refused.", "quantifier": "All precisions prec >= 2, all matrix sizes (below 2^(prec-1) rows for (2)), all matrices of floating-point numbers.", "why_tests_cant": "The error accumulates over a triple loop whose length is unbounded, and whether a pivot comes out positive depends on the exact bits; no finite set of matrices settles either.", "anchors": ["geomc/linalg/Cholesky.h: cholesky"]}
