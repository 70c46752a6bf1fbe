# Formal model of geomc in Rocq (Coq 8.16.1)

## Layout

Each component of /repo is covered by up to four files in `rocq/theories/`:

* `XModel.v`  – executable Gallina transcription of the C++ code.  Every definition cites file and
  lines.  No proofs.
* `XSpec.v`   – small specification, independent of the model (only where the specification is not a
  one-line statement over the standard library).
* `XProofs.v` – lemmas.
* `XProps.v`  – property theorems only, each closed by `exact lemma`, followed by
  `Print Assumptions`, and accompanied by `Example`s showing that the hypotheses are met by a
  concrete non-trivial case.

Conventions

* Undefined behaviour (out-of-bounds access, reading a dead object, division by zero, signed
  overflow where relevant) is a distinct outcome (`UB`) of the model, never a default value.
* Machine words are `Z`/`N` with explicit `mod 2^k`; other integers are unbounded `Z`, and the
  representability precondition is written in the theorem when the property depends on it.
* Numeric template parameter `T`: algebraic code (linear algebra) is modelled over an arbitrary field
  given by Section variables (so every theorem quantifies over the field; no axioms); the instance `Qc`
  (canonical rationals) is used to compute witnesses.  Geometric code using order, square roots or
  trigonometry is modelled over Coq's reals `R`.  Those theorems are about exact
  arithmetic.  The helpers that the rest rests on are also modelled with rounding, over the IEEE 754 numbers of Flocq (C82, C84-C88).
  This is stated in the trusted base.
* A property the code violates is settled by a `..._refuted` theorem with a concrete witness, next to the
  strongest positive theorem we can prove (with the exact guard under which the code is right).
* C++ templates that cannot compile when instantiated are not modelled (listed at the end).

## Plan per property

| id | model | proof idea |
|----|-------|-----------|
| C01,C02 | ring buffer with explicit cell array, head, size, capacity; option for OOB | representation invariant, simulation with `list`, induction over op list |
| C03,C04 | deque with inline/heap buffer location and an allocation set | invariants + witness state reached by operations |
| C05,C06 | buffer cells `Dead`/`Live v`; reads of dead cells are UB | simulation for the guarded operations, witnesses for UB |
| C07 | heap of arrays, owner map | algebraic laws, invariants over histories |
| C08-C10 | `Z` transcription with truncating `Z.quot`/`Z.rem` | lia, bit lemmas |
| C11 | `Z` mod 2^64 | Hull-Dobell by induction on k for modulus 2^k |
| C12 | words as `Z` with bitwise ops | explicit inverse functions / linear algebra on bit vectors |
| C13 | word-by-word acceptance predicate | counting over intervals |
| C14 | generator + bit pool state machine | invariants and witness histories |
| C15,C16 | words; bytes as lists | injectivity of addition; equality with an independent spec written from the SipHash paper |
| C17,C18 | vectors as lists of Z | mixed-radix counting, induction on the dimension |
| C19,C20 | index functions | div/mod lemmas, induction on the dimension |
| C21-C24 | vectors as lists / functions over an ordered ring | pointwise reasoning; `lra`/`lia` |
| C25-C27 | arrays as lists of nat | invariant; cycle-decomposition loop invariant |
| C28-C31 | matrices as functions over a field | loop invariant of Gaussian elimination |
| C32 | reals | loop invariant; definiteness by completing squares |
| C33 | real vectors as lists | loop invariant |
| C34 | matrices over a ring | pointwise sums |
| C35-C38 | reals | `ring`/`field`/`nra` |
| C39 | reals, expression trees | structural induction with `derivable_pt_lim` |
| C40 | reals | induction over the interpolation tree |
| C41 | deque as C01 | history with a self-reference into the grown buffer |
| C42 | words, 624-word state | invariant between calls; linear recurrence by induction on the output index |
| C43 | bit strings to reals | exact counting of dyadic intervals |
| C44 | reals, edge functors | pointwise |
| C45-C48 | Rects over an ordered field / R | pointwise, Minkowski sums of intervals, `lra` |
| C49-C51 | matrices over a field; aliased storage as a heap of cells | pointwise sums; cells written before they are read give the refuted cases |
| C52,C53 | R, `atan2`/`acos` specified by their defining equations | trigonometric identities |
| C54,C55 | `nat -> R` vectors | sums over dimensions, Cauchy-Schwarz |
| C56-C58 | R and Z | case analysis with `nra`/`field` |
| C59-C64 | R | three-term recurrences by strong induction; orthogonality by explicit antiderivatives |
| C65-C73 | shapes as sets of points (`ShapeSpec`), support/projection/clip as functions | each query characterised by the set: contains, nearest point, support maximiser, ray parameters |
| C74,C75 | simplices as convex combinations | barycentric solve (via C28/C29), face recursion by induction on the dimension |
| C76,C77 | iteration with fuel; separating axes | invariant (separating direction or enclosed origin); complete in 2D/3D by edge-cross argument |
| C78 | streams of draws | acceptance sets, counting of swaps |
| C79 | two id lists with per-node iterators | representation invariant (groups of siblings, groups of items) over all histories |
| C80 | association list in arbitrary grouped order | chain of block cells; permutation of a filter |
| C81 | matrices in a memory of cells, either layout; operands as iterators | loop invariants on cells written so far; counting of diagonal offsets |
| C82 | IEEE 754 numbers of Flocq, any precision | error analysis of Kahan's algorithm (exact subtraction or no cancellation); computed witnesses |
| C83 | Storage objects of all policies as names of blocks of memory with the counts of `shared_array` | specification: arrays that are never released, legality by whether an owner exists; refinement in both directions (same outputs, faults exactly when the specification has no step), with the invariant that counts are numbers of owners. |
| C84 | `quadratic_solve` on IEEE 754 numbers | the sign of the computed discriminant is right (both roundings monotone); relative errors propagated; computed witnesses |
| C85 | dot, length, unit, cosine, cross on IEEE 754 numbers | products of rounding factors by induction on the dimension; bit-level symmetry by cases; computed witnesses |
| C86 | clamp, mix, interpolation, quotients, snap, angles on IEEE 754 numbers | one rounding at a time with explicit error terms, induction on the axes; computed witnesses |
| C87 | random floats of a range on IEEE 754 numbers | sign and range of products with a factor in [0,1], one rounding at a time; computed witnesses |
| C88 | radians, degrees, cubic interpolation on IEEE 754 numbers | Machin's formula for pi; relative errors multiplied out; induction on the axes with growth factor 5/4 + 150 u; computed witnesses |
| C89 | construction and range of Perlin noise over R, random numbers and shuffle choices as oracles | induction on the axes: each blend keeps the value within the root of the mean squared distance (Cauchy-Schwarz, concavity of the root) |
| C90 | MtxSubsetIterator and MtxColIterator on top of the grid iterator of C17/C18 | the k-th position in closed form (quotient and remainder by the width); induction on the positions left; faults found by position |
| C91 | the accumulation loops of MatrixMult.h and AffineTransform.h on IEEE numbers (Flocq), one rounding per operator | induction on the terms with (1+u)-factors and an absolute term for underflow; bit patterns for zeros, ones and infinities; integers by format membership |
| C92 | the Rect functions on IEEE numbers (Flocq), one rounding per operator, infinities and NaN included | places on the line (infinities at the ends), monotonicity of clamped rounding, relative error factors; witnesses by evaluation |
| C93 | the Rect functions on w-bit integers: signed operators that fail when the exact result does not fit, unsigned ones modulo 2^w | characterisation of each function per axis; cells enumerated by induction on the axes for the volume; modular arithmetic |
| C94 | the index arithmetic of rasters and the increments, distances and jumps of grid iterators on w-bit signed integers: operators that fail when the exact result does not fit | equality with the exact models by induction on the axes, bounding every intermediate product by the number of cells; failing cases computed |
| C95 | quaternion products, conjugates and rotations in floating point, every operator rounding | each element is a rounded sum of four products (the lemma of C91's matrix products, after moving signs into the factors); sizes by Cauchy-Schwarz; the two products of a rotation composed by the triangle inequality |
| C96 | spheres (bounds, containment, signed distance) and half-spaces (through a point, distance, containment) in floating point | the rounded sum of squares is monotone in each coordinate with infinities included (places on the extended line); the accuracy lemmas of C85's vectors turn comparisons of rounded values into comparisons of exact ones; `_refuted`: witnesses computed in doubles |
| C97 | ray-sphere intersection in floating point (the coefficients, then C84's quadratic_solve, then the sorted roots) | signs of each rounded step, infinities included, give the side of the origin; errors of the three coefficients by the accuracy lemmas of C85 and Cauchy-Schwarz give the error of the discriminant, whose sign C84 decides exactly; `_refuted`: witnesses computed in doubles |
| C98 | 2 x 2 and 3 x 3 determinants and inverses in floating point (det2x2, det3x3, inv2x2, inv3x3 on arrays) | the 3/2 ulp bound on diff_of_products (C82) gives minors with relative error 3u; one lemma bounds a sum of three products with computed minors; Cramer's rule for any exact inverse; rounding of the quotients; `_refuted`: matrices of whole numbers, computed in doubles |
| C99 | the Cholesky decomposition in floating point (cholesky on arrays) | the computed elements satisfy the recurrence with rounded operations; backward error of an inner product subtracted term by term, divided or rooted; finiteness of everything follows from the flag, since an overflow makes a later pivot negative or NaN; on failure a nearby matrix with a non-positive pivot is built from the computed rows; `_refuted`: two 2 x 2 matrices of doubles |
| C100 | solving decomposed systems in floating point (backsolve_lu, backsolve_plu) | the loops leave, column by column, the equations of forward and back substitution with rounded operations; each subtraction read backwards, its error relative to its result; induction over the list of columns; the two substitutions combined; finiteness of the result implies that of every intermediate; `_refuted`: two 2 x 2 systems of doubles |
| C101 | PLU decomposition in floating point (decomp_plu) | invariant of the elimination loop: each element of the reordered matrix is within a bound of the sum of the products recorded so far plus the element still to be reduced; every rounding read backwards (relative to its result), exchanges permute the invariant; finiteness of the result implies that of every intermediate; `_refuted`: two 3 x 3 matrices of doubles |
| C102 | linear_solve in floating point | C101 and C100 combined: the residual of each equation is that of the substitutions plus the error of the decomposition times the solution; the permutation loop ends because the returned order is a permutation whatever the elements are; `_refuted`: a 3 x 3 system without solutions that is answered, a regular one that is refused, a 2 x 2 one answered true without a number |
| C103 | LUP decomposition in floating point (decomp_lup) | the invariant of C101 with exchanges of columns; needs that no line is reported degenerate; `_refuted`: a 2 x 2 matrix whose degenerate decomposition loses an element, and one that overflows although decomp_plu decomposes it |
| C104 | inverses of any size in floating point (invNxN) | the permuted unit matrix is exact, each column is a system of C102; `_refuted`: three 5 x 5 matrices of doubles |
| C105 | `orthogonal` of N-1 vectors in floating point | back substitution error (as in C102) times the unit lower factor, plus the decomposition error of C101 times the result; `_refuted`: three families of doubles in four dimensions |
| C106 | `nullspace` of n <= N-2 vectors in floating point | as C105, with the substitution run upwards for each null vector; `_refuted`: three families of doubles |
| C107 | `project_on` and `fraction_on` in floating point | the error of the dot products (C85), of one product and one quotient, added up; `_refuted`: axes of doubles whose squared length underflows or overflows |
| C108 | `orthogonalize` (Gram-Schmidt) in floating point, dimensions other than two | one subtraction: the projection errors of C107 and one rounding per element; induction over both loops for what each vector is left with; `_refuted`: two pairs of doubles |
| C109 | `orthonormalize`, and the two-dimensional overload of `orthogonalize`, in floating point | induction over the scaling loop and the unit vectors of C85; the overload is exact; `_refuted`: two pairs of doubles |
| C110 | `project_to_orthogonal_subspace` and `project_to_subspace` in floating point | forward error of a sum by induction over the loop; the terms are those of C107 and the basis that of C109; `_refuted`: a vector of a plane given by two doubles vectors |

## Trusted base

1. Coq 8.16.1 kernel.
2. Axioms: those printed by `Print Assumptions`, listed per theorem in `ASSUMPTIONS.md`; only the standard library's
   (`Reals`: `ClassicalDedekindReals.sig_forall_dec`, `ClassicalDedekindReals.sig_not_dec`,
   `functional_extensionality_dep`; `Classical_Prop.classic` where marked).  Of other libraries only Flocq is used (C82, C84-C88, C91, C92, C95-C110), whose development has no
   axioms of its own.
3. The reading of the C++ code recorded in the comments of the `*Model.v` files.
4. Exact arithmetic in place of floating point: no rounding, overflow, NaN or signed zero, except where a model says so
   (C43 works with the bits of the mantissa; C82, C84-C88, C91, C92 and C95-C110 with Flocq's model of IEEE 754, rounding to nearest even, each operator
   rounded on its own: no contraction into fused operations, no excess precision, and the sign of NaN not modelled).
5. External functions: `std::sqrt`, `sin`, `cos`, `atan2`, `acos` are the real functions; `std::list`, `std::unordered_multimap`,
   `std::swap`, `std::sort`, `boost::shared_array` follow their specification (an `unordered_multimap` keeps equal keys adjacent and `find` returns the first of
   them); shapes wrapped by `Extruded`, `Oriented`, `Frustum`, `Dilated` and the convex test are arbitrary functions with the contract
   stated as hypotheses; uninitialised memory is a universally quantified value.

## What is modelled and what is not

Modelled, function by function, with the line numbers in the comments: `Deque.h`, `SmallStorage.h`, `Storage.h`, `Hash.h`,
`Tree.h`, `function/{Utils,Basis,Path,PerlinNoise,Raster,SphericalHarmonics,Dual*}`, `function/functiondetail/SipHash.cpp`, `random/*` (all
generators, `Random.cpp`, `RandomTools.h`), `linalg/{Vec*,Quaternion,Ray,AffineTransform,Orthogonal,Cholesky,LUDecomp}`, the matrix
products, copies, sums, determinants, inverses, transposes, layouts and permutations of `linalg/mtxdetail` and `mtxtypes`, and `shape/*` except below.

Not modelled because it does not compile when used (so no user can observe it):

* `shape/KDTree.h` and `shapedetail/IndexHelpers.h` (`Bounded<T,N>` takes three parameters), `random/SampleGeometry.h`
  (`ShapeDistribution(s)` initialises no member or base), `Rect::abs`, `Convex::intersects` (calls `gjk_intersect`, which is not
  declared), generic `dilate` of non-integers, `Capsule::{nearest_axis_point,project,normal}`, `Ray::sdf`, `VecBase::{reflect_about,
  bounce_on}`, `Vec2::rotate(center, radians)`, `Quaternion::{rotation_scale,slerp}`, `Dual` times-assign by scalars and its
  `diff_of_products`, complex `FMADot`, `Raster` with dynamic `sample`, `DiagMatrix * DiagMatrix`, inverse and determinant of
  `DiagMatrix`, determinant of a `SimpleMatrix` of dynamic size, column-major Cholesky of a `SimpleMatrix`,
  `BinLatticePartition::query(Rect)`, `from_rgb`, `from_argb` and `from_rgba` of `Vec3.h` and `Vec4.h` (they name a member `factor` that does not exist), and of `Tree.h`: `insert_child_nodes`, `insert_items`, `adopt`, erasing items, `subtree_begin`.

Not modelled for other reasons:

* The copy constructor of `Tree` (always dereferences the end of the source's list: undefined) and the templated `find_parent`.
* `SphericalHarmonics::operator+` (reads an uninitialised counter and returns nothing).
* Stream output operators, `shapedetail/GJKDebug.h`, `test/`, `regression/`.
* Rounding other than in C43, C82, C84-C88, C91, C92 and C95-C110; contraction of `x += a * b` into a fused operation; overflow of `index_t` other than in C94; integer types narrower than `int`.
* A `SimpleMatrix` with exactly one dimension fixed by its type.
* `MtxRowIterator` and `MtxAssignmentProxy` (they call `get`, which no matrix has) and `MatrixHandle` (`using ... ::get`): they do not compile when used.
