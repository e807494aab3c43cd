# Formal model of stanislas-brossette/manifolds in Rocq (Coq 8.16.1)

The C++ source in /repo was read as text; nothing was built or run.  The Coq files are in `rocq/theories`;
`properties.jsonl` lists the properties, `MANIFEST.json` the theorems that settle each of them, `seeded/LOG.jsonl`
the wrong programs tried against the theorems.

## 1. Trusted base

* Coq 8.16.1's kernel (and its `vm_compute`, used in examples, hash values and witnesses).
* The axioms printed by `Print Assumptions` (table in section 6).  There are only two cases: theorems that are
  *closed under the global context* (no axiom at all), and theorems about real numbers, which use the axioms of the
  standard library's `Reals`: `ClassicalDedekindReals.sig_not_dec`, `ClassicalDedekindReals.sig_forall_dec`,
  `FunctionalExtensionality.functional_extensionality_dep`, and (through analysis lemmas) `Classical_Prop.classic`.
  No axiom, `Variable`, `Hypothesis` or `Admitted` of our own.  Libraries: Coq's standard library, and Flocq
  (definition of IEEE binary64 and its rounding theorems, used by the F64*.v files only), which adds no axiom.
* The reading of the C++ that the model files record: every definition cites the file and lines it represents.
  The correspondence between the C++ text and the model is by inspection, not proved.
* Eigen, boost::math::sinc_pi and the C++ standard library are represented by their documented behaviour
  (section 3).

## 2. Modelling choices

* **Arithmetic.** Model functions are written once, over a class `Scalar K` (Scalar.v) that only names the
  operations the C++ uses (`+ - * / sqrt cos sin acos atan2 < =`, literals, `M_PI`, infinity).  No laws are assumed.
  Structural theorems (layout, componentwise behaviour, aliasing, frame conditions, error propagation, objects,
  points, text, buffers, threads) are proved for **every** `K`, so they also hold for IEEE doubles.
  Numeric theorems use one instance, `XR` (XR.v): exact real numbers `Fin r` plus `PInf` (literal infinity) and
  `Undef` (any other non finite double).  `x/0`, `acos` outside [-1,1], `sqrt` of a negative number give `Undef`;
  comparisons with `Undef` are false (as for NaN).  These theorems are about exact
  arithmetic; switches (1e-8, 1e-16 ...) and Taylor branches are modelled exactly as written.
  A second instance, `F64 L` (F64.v), is IEEE 754 binary64 with rounding to nearest even (Flocq), where `L` gives
  the library functions; C49 assumes cos and sin accurate to 2 half-ulps on [-4,4] (`accurate`; `libm_exact` satisfies
  it, so the hypothesis is not vacuous).
  C49 is about this instance; every any-scalar theorem also holds of it.
* **Results.** `res A := Ok a | Fail e` (Base.v) with `EAssert` (mnf_assert / assert), `EEigen` (Eigen's own size and
  range assertions), `EThrow` (std::runtime_error), `EUB` (access outside a buffer).  The debug build (assertions
  enabled, MNF_ASSERT_THROW) is modelled; Model_Release.v is the release build (NDEBUG: no assertion, and no evaluation of
  their arguments) and C56 relates the two.
* **Data.** Vectors are lists, matrices are column-major lists of columns with an explicit row count.
  A manifold (value layer) is a tree: leaves R^n, S2, SO3<ExpMapMatrix>, SO3<ExpMapQuaternion>; nodes are products
  carrying the stored start indices, dims and name exactly as the C++ objects store them (they are *not* recomputed
  from the children; that they agree with the children is theorem C01).
* **Layers.**
  1. value layer (`Model_Real`, `Model_S2`, `Model_SO3`, `Model_Manifold`): every `Manifold` API function as a function of
     argument *contents*, returning the new content of its output argument;
  2. memory layer (`Model_Memory`): the functions that may be called in place, reading and writing ranges of one
     flat memory, coefficient by coefficient;
  3. object layer (`Model_Object`): a heap of manifold and point objects with lock flags, ids, reference counts, shared
     ownership and storage blocks, and a `step` function over API calls; theorems are about all histories;
  4. separate models: `Model_Buffer` (temporary buffer with a failing allocator and 64-bit wrap-around), `Model_Hash` (type
     identifiers), `Model_Text` (names, descriptions), `Model_Robot` (src/main.cpp), `Model_Valid` (the validity flag), `Model_Overlap`, `Model_Threads` (interleavings).
* **Specifications.** The statements use small independent definitions: `Spec.v` (layout sums, factors, slices, leaves),
  `SpecR.v` (real vectors, rotations, unit quaternions, exact exponential), `SpecObj.v`, `SpecAlias.v`, `SpecThreads.v` and
  definitions local to the `Properties_*.v` files.  `Properties_*.v` contain the theorems and, beside them, concrete
  non-trivial examples meeting their hypotheses.  All other files are lemmas.

## 3. What is modelled

| source | model |
|--------|-------|
| Manifold.cpp, Manifold.h (constructor, public API with every assertion, getView/getConstView/getStart/getDim, locks, ids, getNewCopy, isSameType) | Model_Manifold, Model_Object, Model_Hash |
| CartesianProduct.cpp/.h (constructors, multiply, every virtual member, description, isSameTopology) | Model_Manifold, Model_Object, Model_Text |
| CartesianPower.cpp/.h | Model_Manifold.power |
| RealSpace.cpp, S2.cpp, SO3.h (every member) | Model_Real, Model_S2, Model_SO3, Model_Manifold, Model_Print |
| ExpMapMatrix.cpp, ExpMapQuaternion.cpp (every member) | Model_SO3, Model_Memory, Model_Overlap |
| utils.cpp (hat, hat2, computeRotBetweenVec), utils.h (hash) | Model_S2, Model_Hash |
| Point.cpp/.h (ConstSubPoint, SubPoint, Point: construction, copies, indexing, writing, increment, operators, retractation, pseudoLog) | Model_Object |
| view.h and the matrix view templates of Manifold.h | Model_Views |
| RefCounter.h | Model_Object (o_count) |
| ReusableTemporaryMap.h/.cpp | Model_Buffer, Model_Threads |
| ValidManifold.h | Model_Valid |
| src/main.cpp | Model_Robot |

Simplifications (each is also stated in the comment of the definition it concerns): addresses are allocation
numbers, never reused; counters of the object layer do not overflow; memory allocation fails only in Model_Buffer;
Eigen products are evaluated into a temporary unless noalias(); the terms of a reduction (`sum`, `dot`, `norm`, `trace`,
matrix products) are added by the scalar's `ksum`: in exact arithmetic the order is irrelevant, and in doubles `F64 L`
adds them in whatever order and grouping `L` chooses (`f_sum`, any function of the list of terms satisfying `sums`: every
bracketing of every permutation; one function for all call sites), so the double theorems hold whatever Eigen's unrolling or vectorisation of a reduction does;
only the witnesses of the double refutations (C51_nan, C54_zero_quaternion, C57_silent, C64_large, C67_lost, C67_nan, C73_zero_refuted, C74_parallel_refuted)
and of a few examples fix the order to left to right (`in_order`); the four terms of each entry of a quaternion product are added by `ksum` too (left to right is the product as Eigen's generic code writes it, F64Order.qmul_written; the SSE code groups them otherwise); boost's Taylor switches
inside sinc_pi, and its value at NaN (which depends on the boost version), are not modelled (C72_sinc bounds what the switches change); `Quaterniond::normalize()` divides by the norm (Eigen 3.2); random draws are inputs;
threads' accesses are totally ordered.

## 4. What is not modelled

Floating-point rounding outside C49, C51, C54, C57, C62 to C67, C69 and C71 to C81 (there: no fused multiply-add, no extended precision,
round to nearest); the digits `operator<<` prints for one double (a parameter of Model_Print); what a destroyed object does beyond its
`ValidManifold` flag (the object layer returns `Undefined` for every use of a destroyed object; Model_Valid reads the
flag there under the assumption that bytes stay until something is stored); the pre-2015 Visual Studio hash; build files and tests; packet (SIMD)
evaluation in Eigen; messages written on std::cout.

## 5. Properties: what is modelled, how it is proved, what is missing

| id | status | how | result |
|----|--------|-----|--------|
| C01 Product dimensions and layout | proved | invariant by induction on the construction of a manifold | any scalar type; all reachable products |
| C02 Views tile the vector | proved | list segment lemmas on top of C01 | any scalar type; reads, writes with frame, refusals |
| C03 Product vector operations act componentwise | proved | generic lemma on the sub-manifold loop, induction on trees, any scalar type | per product and per leaf of nested products; iff covers failure; output content irrelevant |
| C04 retractation then pseudoLog0 / pseudoLog round trips on nested products of R^n and SO(3) | partial | real analysis on each leaf, lifted by induction on trees | all trees of R^n and both SO3 maps: exact off the switches, within 1e-16 per entry everywhere below pi (1e-7 margin on the matrix map); exact domain of the matrix map; property as stated refuted near a half turn around a coordinate axis |
| C05 retractation composed with pseudoLog returns the target | partial | Relog.v: the computed exponentials are within 1e-22 of the exact ones; a logarithm taken in its small branch is within 1e-15 of the relative vector, and exponentials of vectors shorter than 1e-7 are I + hat v up to 11e-15; lifted to trees leaf by leaf. | Every pair of points has a relative vector w (surjectivity of exp). Off the switches pseudoLog returns w and retractation(x,w) is y up to quaternion sign, exactly (C05_log_then_retract_partial); everywhere below pi (1e-7 margin on the matrix map), Taylor branches included, pseudoLog is w within 1e-15 and retractation after pseudoLog is y within 1e-12 (C05_log_then_retract_close). Refuted within 1e-8 of a half turn about a coordinate axis on the matrix map, and on S2 as the property predicts. |
| C06 Jacobian application agrees with the Jacobian | proved | column-block loop lemma, matrix product algebra, induction on trees | apply = multiply by the Jacobian on every tree and any finite matrix; Jacobians returned exactly on trees without a sphere; block-diagonal on products (any scalar) |
| C07 diffRetractation is the derivative of retractation at 0 | proved | derivatives of each coordinate (standard library Ranalysis) | On every tree and at every point on the manifold, along every tangent vector: diffRetractation(x) v (trees without S2) and applyDiffRetractation (all trees, S2 included) are the derivative at 0 of t -> retractation(x, t v); columns are the partial derivatives. |
| C08 diffPseudoLog0 is the derivative of pseudoLog0 | partial | derivatives of each coordinate; limit of the series branch | Proved on every tree at every point off the switches and off half turns (all rotations with sin(angle) >= 1e-5 for the matrix map; all unit quaternions with w<>0 off the 1e-8 switch), along every direction. The limit coefficient of the series branch is refuted: the true one is -1/6, the returned one +1/5 (11/30 is an integer division). At half turns the quaternion logarithm has no derivative (proved). Not covered: nothing else of the statement. |
| C09 Transport on products acts blockwise | proved | row-block loop lemma | any scalar, any number of factors and columns |
| C10 applyInvTransport undoes applyTransport on every manifold | partial | rotation algebra; assertion analysis for products | inverse on elementary manifolds; refuted on products: applyInvTransport_ of a product uses column views and asserts |
| C11 isInM on a product is the conjunction of the factors at the requested precision | partial | loop lemma; witnesses | isInM on a product is proved to be the conjunction of the factors at the fixed precision 1e-8 (any arithmetic); S2 and quaternions honour the argument, R^n and the matrix map do not; the stated property is refuted with witnesses in both directions. |
| C12 Tangent membership equals the constraint matrix test | proved | induction on trees with row offset invariant | exact constraint matrix on every tree |
| C13 S2 retractation lands on the sphere | proved | vector algebra | exact tangency test decides; also on every tree with S2 factors |
| C14 S2 forceOnTxM is the orthogonal projection | proved | vector algebra; projections compared for any scalar | orthogonal projection; projVec/projCols/projRows agree for any scalar type |
| C15 Identity on the tangent space | proved | block loop lemma and induction on trees | every tree, every previous matrix content |
| C16 S2 transport is an isometry between tangent spaces | proved | rotation algebra | rotation, isometry, inverse, any number of columns; antipodal assertion characterised |
| C17 S2 pseudoLog and distance | partial | trigonometry | proved off the two singular points; pseudoLog(x,x) = 0 is false (0/0), proved |
| C18 Matrix exponential lands on SO(3) | proved | matrix algebra; error bounds for the Taylor branch | exact rotation off the Taylor branch, defect <= 1e-24 on it, distance to the exact exponential, isInM accepts, refusal from pi on |
| C19 Quaternion exponential lands on the unit sphere | proved | quaternion algebra; error bounds | same for the quaternion map; independence of uninitialised temporaries for any scalar type |
| C20 The two SO(3) maps agree | partial | trigonometric identities between the maps | retractations commute with the conversion for every v; logarithms agree (equal off the small branches, within 2e-15 up to angle pi/2); refuted at the half turn about a coordinate axis |
| C21 Quaternion logarithm respects the double cover | partial | trigonometry of atan2 | all unit quaternions: norm at most pi, exponential is q or -q (exact off the small branch, within 3e-24 on it), sign invariance for w<>0 and opposite values for w=0; refuted at w=0 and for exactness of the small branch |
| C22 Matrix logarithm is total on accepted points | partial | case analysis over all rotations | complete case analysis for all rotations; finiteness characterised for all matrices; refuted at half turns and for an accepted matrix of trace above 3 |
| C23 Zero element and zero vector | partial | leaf computation and induction | Proved on every tree for setZero, isInM of zero and retractation(x,0); pseudoLog0(zero)=0 and pseudoLog(x,x)=0 on trees without S2; refuted on S2 (throws, 0/0). |
| C24 forceOnM returns a point of the manifold and fixes points of the manifold | partial | Gram-Schmidt algebra and induction | Proved on every tree for inputs whose S2 and quaternion parts are nonzero, with the exact acceptance condition; zero parts give NaN (refuted). |
| C25 forceOnM returns the closest point | partial | Cauchy-Schwarz and induction | Proved on every tree without matrix-map parts; refuted for the matrix map (Gram-Schmidt is not the closest rotation). |
| C26 limitMap bounds the domain of retractation | proved | norm bound and induction | All trees; sharp (the corner of the closed box is refused). |
| C27 isSameTopology is structural equality | proved | structural induction; separate type of topologies | For all manifolds, isSameTopology holds iff the trees of factor classes and dimensions (type topo, defined separately) are equal; it is an equivalence; equal topology implies equal dims, layouts and equal results of all 19 operations, for any scalar type. It distinguishes (AxB)xC from Ax(BxC), see C27_example. |
| C28 Type identifiers separate the classes | proved | modular arithmetic on 32-bit words | isSameType iff same class, for all manifolds; finalize and computeRound injective on all 32-bit words; names of equal length differing inside one 4-byte block never collide. Uniqueness for arbitrary names is refuted (two 8-letter names). computeK is never called by the source. |
| C29 Locked manifolds never change | partial | invariant over all histories of the object layer | Heap model of manifold/point objects. C29_locked_partial: over all histories of the declared interface a locked object stays locked and denotes the same tree up to its name; C29_refused: multiply/setMag on a locked object throw and change nothing; C29_who_locks. Missing: implicit copy assignment / move of manifolds, for which the claim is false (C29_assign_refuted, C29_move_refuted). |
| C30 Reference counts equal the number of live points | partial | counting invariant | Count = number of live attached points and destruction reported iff a point is attached to the object or to a factor dying with it, over all histories of the declared interface. False with the implicit operator= of manifolds (C30_assign_refuted). |
| C31 Instance identifiers | partial | invariant over histories | Identifiers given by constructors pairwise distinct and factor ids: all histories, all calls. Ids constant: declared interface only; false with implicit operator= (C31_assign_refuted). |
| C32 Products own snapshots of their factors | proved | ownership invariant | All histories, implicit assignment and move included: components alive, an object not named by a modifying call keeps its tree, multiply stores the trees of the time of the call, no leak. |
| C33 A failing multiply leaves the product unchanged | partial | case analysis of multiply on any state | Proved for p<>m (any state); P.multiply(P) changes the name and locks before throwing (C33_self_refuted). |
| C34 Temporary buffer is always large enough | proved | invariant over histories with failing allocations | All histories of constructions, copies, requests and destructions on any number of buffers, allocations of constructors and copies failing or not, growth succeeding. 64-bit wrap-around modelled; above 2^63 the loop never ends. |
| C35 Temporary buffer survives allocation failure | partial | invariant and witness | False of the code: after any failing growth in any history the destructor releases the old block a second time (C35_refuted, C35_always_double_free). Failures in constructors and copies are harmless (C35_constructors_partial). |
| C36 In-place calls give the same result | proved | refinement of the memory layer to the value layer with frame, induction on trees | All four in-place operations (retractation, pseudoLog, forceOnM, forceOnTxM) on a memory of doubles, coefficient by coefficient as Eigen evaluates them, on every tree: equal to the value-level operation stored in the output range, same result or same failure as with separate buffers, nothing else written. Packet evaluation is not modelled. |
| C37 Sub-points write through, copies do not | proved | heap invariants and path induction | Every index path (C37_path), writing through the sub-point it reaches (C37_write_through), copies (C37_copy) and a frame over every call of every history (C37_untouched). Not modelled: the format_ field of points. |
| C38 Point operators agree with the manifold operations | partial | object layer over the value layer | The three increments give the same value (C38_values, C38_agree), createPoint(val) is characterised exactly on every manifold with a non-empty representation (C38_create). y - x agrees with pseudoLog when dim = tangentDim; on every tree with an S2 leaf it always fails an assertion (C38_minus_fails, C38_minus_refuted). |
| C39 Assignment keeps points on their manifold | partial | value layer lemma on leaf sequences; witness | Proved when both manifolds have the same sequence of elementary factors; false in general: a point of S2 x R is accepted by a quaternion SO3 point (C39_assign_refuted). C39_accepted states what operator= accepts. |
| C40 Random points are on the manifold | proved | leaf lemmas and induction with explicit draws | All trees, all draw sequences in [-1,1] with a nonzero draw in each S2 triple, all |coeff| < pi/sqrt 3; also the bound is sharp (assertion at and above it) and a zero S2 draw gives NaN. |
| C41 Drift over many increments | proved | induction on the number of steps | All trees, all increment sequences, no bound on k: defect at most (1+1e-24)^k-1; isInM accepts up to k = 1e12. C41_never_stops: without S2 factors no assertion fails. |
| C42 Names and descriptions reflect the structure | proved | induction on trees; parsing argument for the structure | Descriptions of all trees for all prefixes: lines, prefix, brackets, leaves in order (C42_description, C42_lines), and the text determines the structure (C42_structure). Names for multiply, the initializer list, CartesianPower and the two-argument constructor; without the dimension hypothesis the separator can be missing (C42_name_exact, C42_name_without_x). Renaming a product afterwards is unrestricted (name() is mutable). RobotManifold of src/main.cpp is the subject of C68. |
| C43 CartesianPower is the n-fold product | proved | induction on n | For every M and every n in Z, the constructor's loop gives exactly the product of max(n,0) multiplications; topology, dims and sub-manifolds follow; operations coincide by C27_same_operations. |
| C44 Const operations are safe to run concurrently | partial | interleaving machine with an ownership invariant; witness schedules | Proved for every schedule in which no two threads are at the same time inside calls on one SO3 object (resp. inside the id counter), for any number of threads, objects and calls; refuted without that restriction: a call returns another thread's result, a buffer block is released twice, a released block is written, identifiers repeat. |
| C45 Overlap detection | partial | loop characterisation | Exact characterisation for all placements and sizes (C45_exact); true is always right; the claim holds when b does not start after a, and is false otherwise: the inner loop starts at j = i, so an overlap in which b starts inside a is missed (C45_missed, C45_overlap_refuted). Empty ranges are undefined behaviour; more than INT_MAX rows overflow the counters. |
| C46 Every accepted product supports points | partial | object layer | Proved for every manifold of positive representation dimension; false for the others: no point of an empty product or of RealSpace(0) can be made (C46_empty, C46_empty_refuted). |
| C47 Operations never touch memory outside their arguments | partial | structural induction on trees over a no-undefined-behaviour predicate | Every operation of the value layer, for all argument sizes; the only out-of-bounds access is toString of an SO3 given a too short vector (C47_toString_refuted). Assertions are those of a debug build. |
| C48 The text of a point lists its elementary parts | partial | loop lemma on slices, regrouping of leaves, bracket counting | Entries, order, slices and indentation proved for all trees without nested empty products, any format (C48_entries); with the default format the whole text line by line (C48_default_lines); brackets do not match on SO3 (C48_brackets_refuted) and an empty nested product leaves an empty line (C48_lines_refuted). |
| C49 Points stay on the manifold in IEEE double arithmetic | proved | Flocq binary64 as an instance of the any-scalar model (F64.v); forward error analysis of each leaf (F64Err, F64Norm, F64S2, F64Exp, F64Quat, F64Mat, F64Mat2); perturbation of nearly orthogonal matrices; induction on the tree (F64Tree) and on the number of increments (Properties_Float) | C49_drift, C49_accuracy, C49_never_stops prove the bounds for every tree and any number of increments, for any libm accurate to 2 half-ulps on [-4,4] (libm_exact shows the hypothesis is satisfiable). The bound on S2 slices is needed (C49_sphere_refuted: beyond, the norm overflows and the result is the null vector). Beside the claim, C49_round_trip_refuted: in doubles pseudoLog does not invert the retractation even on R. Not modelled: Eigen's vectorised summation order, fused multiply-add, excess precision, flush-to-zero. |
| C50 Magnitudes are stored and returned | partial | inductive description of the calls (mags) beside the model, induction on the tree through the componentwise theorems | Returned values and frame proved for every tree and any scalars, when the setters get vectors of the tangent dimension; false otherwise: RealSpace's setters store a vector of any size and the getter then stops at Eigen's assertion (C50_setter_size_refuted), which C50_getters_iff shows to be the only obstacle. |
| C51 Round trips in IEEE double arithmetic | proved | Flocq binary64 instance of the model. F64Log.v (matrix logarithm: perturbation of acos, of t/(2 sin t), of the trace and of X^T Y), F64LogQ.v (quaternion logarithm: perturbation of atan2, relative errors of the norm, inverse and product), F64Back.v (leaves, then trees through flat_op), Properties_FloatLog.v. | C51_nan_refuted: from the identity, v=(2^-26,0,0), pseudoLog of the retracted point is NaN for every library with acos(1)=0 and sin(0)=0; that is why the band between the two matrix ranges is left out of the statement. cos, sin, acos, atan2 are a parameter with stated accuracy; libm_exact meets it. |
| C52 Matrix views tile the matrix | partial | block, row-band and column-band lemmas on top of C01's offsets, any scalar type | Reading, tiling, writing with frame and refusal of indices proved for all nine template instances on every product, and for elementary manifolds. Wrong matrix sizes are not refused as long as the block fits (C52_wrong_size_refuted): only the vector views check the size. |
| C53 The maps commute with the symmetries of the manifold | proved | Symmetries as data (NumSym.v): SymT, SymR, SymQ with their action on points (move) and tangent vectors (push; the identity on SO(3), whose tangent vectors are in the moving frame). Each leaf operation is computed at arbitrary finite arguments and shown to commute; the inverse symmetry gives the converse; lifted to trees by the flattening lemmas. Gram-Schmidt (forceOnM of the matrix map) and the quaternion inverse of a non-unit quaternion included. | Over the reals. C53_commutes (finite results), C53_iff (both directions), C53_tests (isInM at the default precision, isInTxM at any; also the specification's own onM and tanM), C53_inverse (symmetries form a group acting on all vectors). |
| C54 forceOnM in doubles, and staying on the manifold for ever | proved | F64Gs.v: the acceptance test in doubles implies every entry is finite (signs of rounded sums of squares, no finiteness assumption), Gram entries within 0.175; forward error of the modified Gram-Schmidt loop column by column (4, 124 and 2720 units of 2^-53) against the exact gs of Force.v, which is shown to be the QR factor with positive diagonal. F64Force.v: leaf theorems, acceptance of near points, normalisation of 4 doubles up to 2^900, trees through Flat.flat_op1. Properties_FloatForce.v: statements, the loop as an inductive relation over arbitrary buffers, induction on the run. | IEEE binary64 (Flocq), for every tree. C54_repair: whenever forceOnM returns, distance to the manifold <= 27200*2^-53, isInM accepts, result = exact QR factor / normalised slice up to rounding; matrices may contain any double, NaN and infinities are refused. C54_accepts: never refuses a point within 3.3e-4. C54_forever: retractation+forceOnM any number of times keeps the bound (accurate cos/sin assumed); C54_never_stops: the loop goes on for ever without S2. S2 and quaternion slices must be finite with squared norm in [1/16, 2^900]; C54_zero_quaternion_refuted shows some bound is needed (NaN comes out). |
| C55 Vector transport is one linear isometry; multiplying by its inverse on the right undoes it | proved | TransTree.v: induction on the tree; leaf case from the rotation between the two points (C16's lemmas) for S2 and the identity for R^n and SO(3); product case with the block forms of applyTransport (stacked rows) and applyInvTransportOnTheRight (side-by-side columns), the map of the product being the concatenation of the factors' maps. Properties_Transport.v derives the product identity entry by entry. | Real arithmetic (XR), exact points and tangent vectors. applyInvTransport (column version) on products is covered by C10, where it is refuted beyond one factor. |
| C56 The release build agrees with the debug build and never refuses a retraction | partial | Model_Release.v repeats every member of Manifold without mnf_assert (mnf_assert.h:29-42) and without the isInTxM calls that are arguments of it. Release.v: an order on results (what the first returns, the second returns) closed under bind, loops and views, then induction on the tree for each member. Numbers: leaf by leaf without the pi bound and the tangency test, lifted through the product equation of the release build; increments by induction on their number. | C56_refines (21 members), C56_total, C56_lands, C56_increments, C56_full_turns hold. The last sentence is false: C56_silent_refuted gives NaN for v = -x on S2, and a product that silently ignores the extra entry of a point one entry too long; the debug build refuses both. |
| C57 NaN and infinities do not pass the runtime checks | partial | Finite.v: a finite sum, difference, product or square root has finite operands and |a| < b or sqrt a < b forces a finite (six laws, proved for doubles by case analysis on the IEEE constructors and for the exact scalars); the tests isInM, isInTxM, |v| < pi and |det - 1| < 0.1 are then read backwards on each leaf, and lifted to trees by the leaf decompositions of Flat/Points/TanLeaf. | The stated claim is false (C57_silent_refuted): R^n accepts NaNs, retractation does not look at the rotation slices of the point, forceOnM on S2 and quaternions and pseudoLog return NaNs.  Proved for every tree, math library and precision: isInM accepts only finite S2/SO3 slices; isInTxM only finite S2 slices of point and vector; a retraction that returns had finite S2 slices in the point and finite S2/SO3 slices in the vector; a forceOnM that returns had finite matrix slices.  Same in exact arithmetic with undefined values. |
| C58 The retraction at a point is one-to-one and reaches the open half around it | proved | Inj.v: the Taylor branches keep 1 - cos t (matrix) strictly increasing and cos(t/2) (quaternion) strictly decreasing across the switch, so trace or scalar part gives |v| and the skew or vector part gives v; left multiplication by an invertible matrix or nonzero quaternion cancels (Cramer); on S2 the tangency of v and w fixes the scale.  Surjectivity uses the exact logarithms of RotLog.v and y/<x,y> - x on S2; lifted by flat_op. | C58_injective, C58_reach, C58_onto for every tree.  C58_tolerance_refuted: among vectors accepted only within the 1e-8 tangency tolerance of S2, two different ones lead to the same point. |
| C59 Increments compose: error of a path, steps along one direction | proved | Path.v: one increment next to one exact step; right multiplication by a rotation or unit quaternion preserves the row (quaternion) error, so errors add and do not grow.  Subgroup.v: exp(s v) exp(t v) = exp((s+t) v), through the half-angle quaternion.  Induction on the list of increments with the tree lifted by lift_op2. | Exact real arithmetic.  S2 is excluded because the claim fails there (C59_sphere_refuted). |
| C60 The retraction does not amplify perturbations | proved | Lip.v: the quaternion exponential is 1/2-Lipschitz (chord formula), matrices through the Frobenius distance of their quaternions, S2 because normalisation is 1-Lipschitz outside the unit ball; slices are combined by Minkowski's inequality; paths by C59 and induction. | Exact real arithmetic. Points are on the manifold and tangent vectors valid, rotation parts shorter than pi. The matrix map stores nine numbers, so distances are Frobenius and the factor is sqrt 2; C60_factor_refuted shows 1 is not enough. |
| C61 The norm of pseudoLog is a distance | proved | Metric.v: spherical triangle inequality by Cauchy-Schwarz for unit vectors in any dimension, applied to S2, to quaternions with signs chosen, and to matrices through their quaternions; relation to the library's logarithm by the exact/series analysis of C05; slices combined by Minkowski's inequality. | Exact real arithmetic. C61_half_turn_refuted: outside the stated domain it fails; a half turn of the matrix map has pseudoLog zero although the points are at distance pi. |
| C62 Where a path of increments ends in IEEE double arithmetic | proved | One step is C49 (the computed point is within 124 or 82 roundings of the exact product); the exact step is an isometry (right multiplication by a rotation or a unit quaternion), so the Euclidean distance to the exact path grows by a constant per step (FloatPath.v, beside64_step); on R^n the sum is correctly rounded (Flocq's FLT_plus_error_N_ex). Induction over the path, cut into slices; there and back uses exp(v) exp(-v) = 1. | Every path length up to 7e9 steps; S2 slices are left out (C49 bounds one step there). |
| C63 Vector transport in IEEE doubles | proved | F64Trans.v: error analysis of computeRotBetweenVec (each entry within 263 u of the exact formula at the stored point, and 5 d from the rotation between the normalised vectors) and of its product with a vector scaled by S; TransLeaf.v: any-scalar decomposition of both transports into the leaves (blocks of rows, blocks of columns); Properties_FloatTrans.v puts them together. The exact map is characterised independently of the formula: a rotation, taking x/|x| to w/|w|, and fixing what is orthogonal to both. | Both transports on every tree in IEEE doubles, for matrices of any width: S2 parts within (825 u + 15 d) S of the exact rotation at every scale S, other parts copied bit for bit; there and back on S2 within five such errors. applyInvTransport of products is left out: it does not return (C10). |
| C64 forceOnTxM in IEEE doubles, and a loop that never stops on any tree | proved | F64Proj.v: error analysis of v - <x,v> x with entries scaled by S, and of the scalar product the tangent test computes on it; Properties_FloatProj.v lifts it to trees (flat_op) and combines it with the step and repair bounds of C49 and C54 in an invariant over any number of steps. Refutation for long vectors by computation in Flocq's binary64. | Error of the computed projection at every scale, acceptance by the tangent test up to a size, a vector beyond it that is refused, and the loop forceOnM / forceOnTxM / retractation that never stops and never drifts, on every tree. |
| C65 Jacobian of the retraction in IEEE doubles | proved | JacR.v differentiates the exact move of each factor; JacLeaf.v reduces applyDiffRetractation of any tree to its leaves row by row (any scalar); F64Jac.v bounds a rounded dot product; Properties_FloatJac.v assembles them. | Proved of the double instance of the model. The exact move and its derivative are defined over the reals in JacR.v, independently of the Jacobian formulas. diffRetractation itself stops on S2, as in the code, hence the hypothesis no_sphere in C65_jacobian only. |
| C66 Derivative of the logarithm in IEEE doubles | proved | JacLogR.v differentiates the exact rotation vector of a quaternion; F64JacLog.v bounds the computed entries on both sides of the 1e-8 switch; JacLogLeaf.v reduces applyDiffPseudoLog0 of any tree to its leaves row by row (any scalar); Properties_FloatJacLog.v assembles them. | C66_log_jacobian (block diagonal, every block next to the exact derivative), C66_apply (rows of applyDiffPseudoLog0), C66_example. Rotation matrices are left out: their coefficients divide by the sine of an angle read off the trace. |
| C67 pseudoLog between two given points in doubles | proved | F64Find.v: on S2 the computed projection, its norm and the computed cosine are compared with s q, s and c (perturbation of acos), the quotient with t q; quaternion and matrix leaves reuse the logarithms of C51 with an end point known within e; trees through flat_op. Properties_FloatFind.v states it, adds the closed form on S2 and the two counterexamples. | C67_sphere states the sphere without naming the step. C67_lost_refuted and C67_nan_refuted show why short steps on S2 are left out: the result is 0 for every accurate library, and NaN for libraries whose acos is NaN above 1 (as C requires); C67_libm is one that meets both demands. |
| C68 Descriptions of robots, the product subclass of the example program | proved | Model_Robot.v has the trees with classes, multiply, description and main(). By induction on trees the text is the print of a list of lines whose frames nest; printing is one-to-one on plain names, and the list determines the nesting and, for tidy trees, the classes. ex_C68_main evaluates the whole program. | src/main.cpp modelled on top of the library's model: trees with the dynamic class of every product. Framing, one line per elementary manifold, agreement with the library's text without robots, classes kept by multiply, and what the text determines (nesting and names always; classes when no product is directly in a robot). C68_classes_refuted is the ambiguity that remains. |
| C69 Round trip of a retraction in doubles, sphere included | proved | F64Round.v: arc_facts shows in exact arithmetic that (x+v)/|x+v| is the end point of the great circle with the stated step; leaf_step64 (C49) bounds the rounding of the retraction and s2_leaf (C67) that of the logarithm; the other leaves are those of C51; trees by flat_op. | Extends C51 to trees with sphere factors: the exact sum x + v is the end of a great circle step (arc_to), and the computed point is within 8*2^-53 of its direction, so C67's analysis of the logarithm applies. Steps whose angle has sine below about 1e-6 are excluded: C67_lost_refuted and C67_nan_refuted show that the round trip fails there. |
| C70 Calls on a manifold that no longer exists | partial | Model_Valid.v: places with flag_ and count_, the acts of a program on them, and every public member as the list of its checks and uses in source order.  Invariant by induction on the history: a live manifold carries the flag, and a free place keeps what was left there until it is rewritten; the members by their lists.  Undefined behaviour is read in the simplest way: bytes stay until something is stored. | The claim about every member is false: pseudoLog0, createRandomPoint(out), limitMap, the magnitudes, display, description, name, lock, isLocked, getInstanceId, isSameType and getNewCopy have no check and complete on a destroyed manifold (C70_every_member_refuted; C70_unprotected says these are exactly the ones), getIdentityOnTxM and the argument of multiply are stopped only after it was read or written (C70_late).  Proved for all other members.  A pointer to storage in which another manifold was built is never refused (C70_recycled_refuted). |
| C71 Reaching a target in doubles | proved | F64Target.v: pseudoLog is within f of v (leaf_find, C67), so the computed step passes the assertions of retractation (norm below pi, tangency below 1e-8); the exact retraction is Lipschitz (Lip.v), so its end points for the computed step and for v differ by a multiple of f; the rounding of the retraction itself is C49's; trees by flat_op. | C71_target for every tree; C71_sphere_refuted records that the sphere misses its target. Angles above 3.13 and, on S2, close to 0 or pi, are outside (there the assertions of retractation may refuse the computed step). |
| C72 Derivative of the logarithm of rotation matrices in IEEE doubles | proved | F64JacMat.v bounds the trace, acos, 1/sinc, the coefficient df (division by sin^2, with the cancellation of c f - 1) and the nine columns; Properties_FloatJacMat.v differentiates the exact rotation vector of a matrix (JacR/DerivLog) and assembles the tree theorems like C66. | C72_log_jacobian (block diagonal, every block next to the exact derivative), C72_apply (rows of applyDiffPseudoLog0), C72_log (the specification's rotation vector inverts the exponential), C72_sinc (the series boost's sinc_pi uses near zero against the quotient of the model), C72_example. Angles below a milliradian (where the code's own series is wrong, see C08_series_refuted) and above a quarter turn are outside. |
| C73 Random points in IEEE doubles | proved | F64Rand.v: normalisation of vectors as short as 2^-100 (underflow included), products by the coefficient, then the double step of C49 from the exact identity; random_tree (any scalar) threads the generator through the tree; Properties_FloatRand.v assembles. | C73_random for every tree; C73_zero_refuted: three zero draws on S2 give NaN, rejected by isInM; C73_example, C73_example_large (coefficient 2, draws 1,1,1: the assertion of the exponential stops the program). |
| C74 Random tangent vectors of the sphere | proved | vector algebra; error analysis of the projection (C64) and of the normalisation (C73); computed witness | Exact arithmetic: unit, tangent, accepted, can be retracted along; 0/0 exactly for multiples of x. Doubles, any order of summation: explicit error bound in terms of the length of the orthogonal part, accepted by isInTxM above 1e11 times the error of the projection. A draw equal to the point (1,1,0)/sqrt 2 returns the point itself, which isInTxM rejects; a draw parallel to (1,0,0) returns NaN (C74_parallel_refuted). |
| C75 pseudoLog there and pseudoLog back are opposite | proved | Properties_Anti.v: the step back is -w by exp(w) exp(-w) = 1 (exp_back) and leaf_relog of RoundTrip.v, lifted to trees by lift_op2; doubles: multiplication of doubles commutes bitwise, so that Y^T X is the transpose of X^T Y bit for bit in any order of summation, a - b and b - a are opposite doubles and so are their products with the same coefficient; the norm test is settled by the rounding bounds of F64Trans.v and F64Rand.v. | C75_exact (step off the switches), C75_points (any two points), C75_doubles (R^n and rotation matrices, bit for bit), C75_distance (the norms are equal bit for bit), C75_small_refuted (small branch of the matrix logarithm: 1e-9 about (1, 1, 1)), C75_example, C75_example_doubles. Quaternions in doubles are only opposite up to the bounds of C51 (inverse() divides by the squared norm of the first point only, and the four terms of a component come in another order); sphere: the two results live in different tangent planes. |
| C76 The two quaternions of a rotation give the same results in doubles | proved | Each double operation is shown to commute with changes of sign up to the sign of zeros (F64Sign.v, from Flocq's correctness lemmas, overflow and NaN included); the quaternion product, inverse, norm and logarithm follow; trees by the flattening lemmas; walks by induction on the number of moves. | C76_retract, C76_walk (any number of moves, by induction), C76_repair, C76_member, C76_log, C76_log0: two points equal up to the sign of each quaternion (and of zeros) stay so through every operation, in doubles, bit for bit, on every tree. Logarithms keep the sign where the exact scalar product of the quaternions is at least 1e-12 (the scalar part non-zero for pseudoLog0). C76_half_turn_refuted: at a half turn the two quaternions of one rotation give opposite vectors of length pi. Hypotheses on the environment: blind (the order of summation does not depend on signs; proved of left-to-right sums) and, for logarithms, odd_atan2 (required of atan2 by the C standard). |
| C77 Moving by the zero vector changes nothing, in doubles | proved | A sum in which all terms but one are zeros is that term, in any order (induction on the summation tree); products by exactly one are exact; the exponential of zero is computed exactly; trees by the flattening lemmas; walks by induction. | C77_still and C77_walk (any number of moves, by induction): exact, for every order of summation and every cosine and sine (they are not called). Spheres: only at points whose computed norm is exactly one; C77_sphere_refuted: (1 + 2^-30, 0, 0), which isInM accepts, is moved to (1, 0, 0) by the zero vector, because S2 renormalises. |
| C78 Rotation matrices and quaternions stay together, in doubles | proved | The exact paths of the two representations are related by the homomorphism q -> (p -> q p q*); C62 bounds each computed path against its exact one; multiplying by a rotation at most doubles an entrywise difference. Logarithms: both are close to the same exact displacement by C67. | C78_together: any n, any starts; C78_from_zero: from setZero of both, difference at most 1717 n 2^-53 per entry; C78_logs: both logarithms return and differ by at most 8250 2^-53 + 522 d + 1046 e up to a quarter turn, a stated multiple over the squared sine beyond. The rotation of a quaternion is the matrix of p -> q p q*, defined in the file (turn_of); the accuracy asked of cos, sin, acos and atan2 is that of C49 and C51. |
| C79 What isInM accepts is close to the manifold, in doubles | proved | F64Accept.v goes back from each computed comparison to the real numbers: a true comparison with a finite number forces every intermediate sum to be finite, so no entry was infinite or NaN; the rounding bounds of F64Norm, F64Gs then give the exact norm, Gram matrix and determinant. Trees by Points.isInM_leaves; the converse by F64Tree.isInM64; walks by C49_drift. | C79_accept, C79_product, C79_close, C79_walk: in binary64 the membership test is sound (2.1 max(p, 1.001e-8)) and complete (within 3.3e-9) on every tree; R^n parts carry no constraint, so any double, NaN included, is accepted there. |
| C80 What isInTxM accepts is nearly tangent, in doubles | proved | A true comparison with a finite number forces the computed scalar product, hence the three products and the six coordinates, to be finite; three applications of the rounding error bound in any order of summation give the margin; trees by TanLeaf.isInTxM_leaves; the converse bounds every intermediate result to exclude overflow. | C80_accept, C80_close, C80_retractation: soundness and completeness of the tangency test in binary64 on every tree, with the rounding margin explicit; R^n and SO(3) carry free coordinates, so nothing is tested there but the size. |
| C81 Points created in doubles are close to their manifold, after any history | proved | The object layer reduces createPoint(val), retractation and + to isInM and retractation of the tree the manifold denotes (ObjPath.create_val, retract_is, plus_is, invariants over all histories); C79 then turns the accepted test into a distance. | C81_create, C81_retract, C81_plus on the object layer with doubles; increment makes no test, see C79_walk and C49_drift; assignment between points of different manifolds is C39. |

Where a property as stated is false of the code, a theorem named `..._refuted` gives a witness; the true part is
proved next to it (suffix `_partial` when it is the property with something missing).

## 6. Print Assumptions

'R' = the standard library's real-number axioms (sig_not_dec, sig_forall_dec, functional_extensionality_dep,
classic); 'R-' = the same without classic; nothing = closed under the global context.

* C01: C01_product_layout, C01_products_have_factors
* C02: C02_views_tile, C02_view_write_frame, C02_view_refused
* C03: C03_componentwise, C03_componentwise_leaves, C03_output_content_irrelevant
* C04: C04_round_trip_partial (R), C04_round_trip_zero_partial (R), C04_round_trip_close (R), C04_matrix_round_trip_iff (R), C04_matrix_near_pi_refuted (R)
* C05: C05_log_then_retract_partial (R), C05_log_then_retract_close (R), C05_matrix_near_pi_refuted (R), C05_s2_refuted (R)
* C06: C06_apply_diffRetractation (R), C06_apply_diffPseudoLog0 (R), C06_jacobians_returned (R), C06_block_diagonal
* C07: C07_derivative (R), C07_columns (R)
* C08: C08_derivative (R), C08_regular_rotations (R-), C08_series_coefficient (R), C08_series_refuted (R), C08_half_turn_refuted (R)
* C09: C09_transport_blockwise
* C10: C10_inverse_elementary (R), C10_product_never_returns, C10_product_refuted (R)
* C11: C11_product_partial, C11_elementary_partial (R), C11_product_precision_refuted (R), C11_matrix_precision_refuted (R)
* C12: C12_constraint (R), C12_product
* C13: C13_s2_lands_on_sphere (R), C13_tree_lands_on_manifold (R)
* C14: C14_s2_projection (R), C14_projections_agree
* C15: C15_identity (R)
* C16: C16_s2_transport (R), C16_rotation_between (R)
* C17: C17_s2_pseudoLog_partial (R), C17_s2_pseudoLog_self_refuted (R)
* C18: C18_matrix_retraction (R)
* C19: C19_quat_retraction (R), C19_no_uninitialised
* C20: C20_retractions_commute (R), C20_logs_agree_partial (R), C20_half_turn_refuted (R)
* C21: C21_quat_log_partial (R), C21_sign_refuted (R), C21_small_branch_refuted (R)
* C22: C22_matrix_log_partial (R), C22_finite_iff (R), C22_half_turn_refuted (R), C22_near_identity_refuted (R)
* C23: C23_zero_partial (R), C23_s2_refuted (R)
* C24: C24_force_partial (R), C24_zero_refuted (R)
* C25: C25_closest_partial (R), C25_matrix_refuted (R)
* C26: C26_limit (R), C26_corner_refused (R)
* C27: C27_structural, C27_equivalence, C27_same_operations
* C28: C28_same_type, C28_topology_refines_type, C28_steps_injective, C28_one_block, C28_unique_refuted
* C29: C29_locked_partial, C29_refused, C29_who_locks, C29_assign_refuted, C29_move_refuted
* C30: C30_count_partial, C30_destroy_partial, C30_destroy_point_partial, C30_assign_refuted
* C31: C31_distinct, C31_factor, C31_constant_partial, C31_assign_refuted
* C32: C32_alive, C32_snapshot, C32_multiply, C32_no_leak
* C33: C33_unchanged_partial, C33_succeeds_partial, C33_self_refuted
* C34: C34_memory, C34_request, C34_power_of_two, C34_beyond_2_63
* C35: C35_refuted, C35_always_double_free, C35_constructors_partial
* C36: C36_values, C36_retractation, C36_forceOnM, C36_forceOnTxM, C36_pseudoLog, C36_increment
* C37: C37_path, C37_outside, C37_write_through, C37_copy, C37_untouched
* C38: C38_values, C38_returns, C38_create, C38_log_partial, C38_minus_fails, C38_s2_count, C38_agree (R), C38_minus_refuted (R)
* C39: C39_assign_partial (R), C39_accepted, C39_assign_refuted (R)
* C40: C40_random_points (R), C40_bound_is_sharp (R), C40_zero_draw (R)
* C41: C41_drift (R), C41_never_stops (R)
* C42: C42_description, C42_lines, C42_structure, C42_name, C42_name_exact, C42_name_pair, C42_name_list, C42_name_power, C42_name_without_x
* C43: C43_power
* C44: C44_exclusive_partial, C44_alone, C44_interference, C44_ids_partial, C44_result_refuted, C44_double_release_refuted, C44_released_write_refuted, C44_ids_refuted, C44_ids_one_thread_refuted
* C45: C45_exact, C45_sound, C45_overlap_partial, C45_bytes, C45_missed, C45_overlap_refuted
* C46: C46_create_partial, C46_empty, C46_empty_refuted
* C47: C47_safe, C47_safe_matrices, C47_safe_access, C47_toString_partial, C47_toString_refuted
* C48: C48_entries, C48_default_lines, C48_total, C48_refused, C48_brackets_partial, C48_brackets_refuted, C48_lines_refuted
* C49: C49_drift (R), C49_accuracy (R), C49_never_stops (R), C49_sphere_refuted (R), C49_round_trip_refuted (R)
* C50: C50_returned, C50_setters_frame, C50_setter_size_refuted, C50_getters_iff
* C51: C51_round_trip (R), C51_nan_refuted (R)
* C52: C52_view_read, C52_tile, C52_view_write, C52_view_refused, C52_wrong_size_refuted, C52_elementary
* C53: C53_commutes (R), C53_inverse (R-), C53_tests (R), C53_iff (R)
* C54: C54_repair (R), C54_accepts (R), C54_forever (R), C54_never_stops (R), C54_zero_quaternion_refuted (R)
* C55: C55_one_isometry (R), C55_product_unchanged (R)
* C56: C56_refines, C56_total, C56_lands (R), C56_increments (R), C56_full_turns (R), C56_silent_refuted (R)
* C57: C57_checked (R), C57_silent_refuted (R), C57_checked_exact (R)
* C58: C58_injective (R), C58_reach (R), C58_onto (R), C58_tolerance_refuted (R)
* C59: C59_path (R), C59_path_exact (R), C59_one_direction (R-), C59_steps (R), C59_there_and_back (R), C59_full_turn (R), C59_sphere_refuted (R)
* C60: C60_lipschitz (R), C60_lipschitz_exact (R), C60_step (R), C60_paths (R), C60_factor_refuted (R)
* C61: C61_metric (R), C61_log (R), C61_measured (R), C61_stored (R), C61_step (R), C61_half_turn_refuted (R)
* C62: C62_path (R), C62_portable (R), C62_there_and_back (R)
* C63: C63_transport (R), C63_back (R)
* C64: C64_projection (R), C64_accepted (R), C64_never_stops (R), C64_forever (R), C64_large_refuted (R)
* C65: C65_jacobian (R), C65_apply (R)
* C66: C66_log_jacobian (R), C66_apply (R)
* C67: C67_find (R), C67_sphere (R), C67_lost_refuted (R), C67_nan_refuted (R)
* C68: C68_description, C68_library, C68_same_product, C68_assembled, C68_multiply_classes, C68_multiply_text, C68_nesting, C68_classes, C68_classes_refuted
* C69: C69_round_trip (R), C69_sphere (R)
* C70: C70_live, C70_one_place, C70_destroyed, C70_refused_destruction, C70_late, C70_overwritten, C70_unprotected, C70_every_member_refuted, C70_recycled_refuted, C70_release
* C71: C71_target (R), C71_sphere_refuted (R)
* C72: C72_log (R), C72_log_jacobian (R), C72_apply (R), C72_sinc (R)
* C73: C73_random (R), C73_zero_refuted (R)
* C74: C74_tangent (R), C74_sizes, C74_doubles (R), C74_parallel_refuted (R)
* C75: C75_exact (R), C75_points (R), C75_small_refuted (R), C75_doubles (R), C75_distance (R)
* C76: C76_retract (R), C76_walk (R), C76_repair (R), C76_member (R), C76_log (R), C76_log0 (R), C76_half_turn_refuted (R)
* C77: C77_still (R), C77_walk (R), C77_sphere_refuted (R)
* C78: C78_together (R), C78_from_zero (R), C78_logs (R)
* C79: C79_accept (R), C79_product (R), C79_close (R), C79_walk (R)
* C80: C80_accept (R), C80_close (R), C80_retractation (R)
* C81: C81_create (R), C81_retract (R), C81_plus (R)

## 7. Findings

Defects and surprises of the code established by the theorems (all `..._refuted` theorems give a concrete witness).

1. **applyInvTransport on products never works** (C10): CartesianProduct::applyInvTransport_ takes column views instead
   of row views; whenever one factor has another tangentDim than the product itself, the call never returns,
   whatever its arguments (`C10_product_never_returns`, `C10_product_refuted`).
2. **`11 / 30` is an integer division** in ExpMapMatrix::diffPseudoLog0_ (C08): the series branch has coefficient +1/5
   instead of -1/6 at the identity (`C08_series_refuted`).
3. **Matrix logarithm near a half turn** (C04, C22): the small-vector test looks at three off-diagonal entries, not at
   the rotation angle, so rotations close to a half turn about a coordinate axis take the small branch and return
   nearly 0; at half turns and for accepted matrices of trace above 3 the result is not finite.
4. **Quaternion logarithm** (C21): w = 0 is not invariant under q -> -q; diffPseudoLog0 has no derivative there (C08).
5. **The two SO(3) maps disagree at half turns** (C20).
6. **S2::pseudoLog(x,x) is 0/0** and S2 has no pseudoLog0 (throws); pseudoLog is the great-circle logarithm, not the
   inverse of the retractation (C05, C17, C23); in doubles too it misses the target (C71).
7. **isInM ignores its precision** on products (the default is passed on), R^n and the matrix map (C11).
8. **forceOnM**: zero S2 or quaternion parts give NaN (C24); Gram-Schmidt is not the closest rotation (C25).
9. **limitMap** bounds are excluded corners: the closed box is refused (C26, only documented as a bound).
10. **createRandomPoint** fails an assertion for coeff >= pi/sqrt(3) (some draws) and S2 can divide by zero (C40).
11. **Hash**: computeK is defined but never called, the seed is not used, and names of 8 letters collide (C28).
12. **reallocate_**: after a failed allocation the destructor releases the old block again (C35); requests above 2^63 never return (C34).
13. **Implicit operator= and move of manifolds** bypass locks, ids and reference counts (C29, C30, C31).
14. **P.multiply(P)** changes the name and locks P before throwing (C33).
15. **y - x** allocates dim() instead of tangentDim() doubles: it fails an assertion on every tree with an S2 leaf (C38).
16. **Point::operator=** compares dimensions only: a point of S2 x R is accepted by a quaternion SO3 point (C39).
17. **No point on manifolds of representation dimension 0** (RealSpace(0), empty products) (C46).
18. **areOverlappingData** misses overlaps where b starts inside a; it is also called from nowhere (C45).
19. **Names**: the separator is missing after factors of dimension 0; name() stays writable after locking (C42).
20. **Threads**: the mutable buffer of SO3, RefCounter::count_ and manifoldCounter_ are unsynchronised (C44): wrong
    results, double release, equal identifiers, even inside one thread; two products sharing an SO3 factor race.
21. Smaller: isSameTopology distinguishes (AxB)xC from Ax(BxC) (C27); RealSpace magnitude setters do not check sizes, the getters then
    stop forever, also in every product made from it (C50);
    the ConstSubPoint copy constructor leaves format_ uninitialised-by-copy; ReverseQuaternion reads uninitialised
    doubles; Point::retractation checks isInM of its result whereas operator+ checks its argument (C38); partially
    overlapping outputs would give wrong results (example C36_ex_shifted).
22. **SO3::toString** reads past the end of a vector shorter than the representation: its assertion-free loops index
    the argument directly; an SO3 prints an unmatched bracket with the format
    `defaultFormat(4,0,", ","\n","[","]")`; an empty nested product leaves an empty line (C47).
23. **Doubles** (C49): S2::retractation of a tangent vector of norm 2^600 overflows in the norm and returns the null
    vector, without any assertion failing; pseudoLog does not invert retractation exactly in doubles.
24. **NaN band of the matrix logarithm** (C51): in doubles, at rotation angles near 1.5e-8 the trace rounds to 3 or above
    while the small-vector test fails, and the quotient is NaN.
25. **Matrix views do not check the matrix** (C52): vector views assert the size of the vector, matrix views only the
    index; a matrix of the wrong size gives a misplaced block or an Eigen assertion.
26. **Release build** (C56): with NDEBUG a retraction by a non-tangent vector of S2, or by a rotation vector of norm at
    least pi, returns silently; on S2 the result of a non-tangent move is still normalised.
27. **NaN** (C57): no check looks at the rotation slices of the point in retractation and pseudoLog, nor at R^n slices at
    all; forceOnM of S2 and of the quaternion chart turns NaN input into NaN output without failing.
28. **Tangency tolerance of S2** (C58): vectors tangent only within 1e-8 are accepted, and two different ones can lead to
    the same point; on exactly tangent vectors the retraction is one-to-one.
29. **No second step on the sphere** (C59): after an increment by v on S2, v is not tangent any more and the same
    increment fails its assertion; elsewhere k increments by v are one increment by k v.
30. **A projected vector can still be refused** (C64): in doubles, forceOnTxM of a long vector on S2, for instance
    (1e9, 1, 0) at (3/5, 4/5, 0), returns a vector that isInTxM rejects and retractation stops on: the tangency
    tolerance 1e-8 is absolute while the rounding error of the projection grows with the vector.
31. **Short steps on the sphere** (C67): S2::logarithm takes acos of the scalar product.  For points closer than about
    1e-8 the product rounds to 1 and the result is 0 instead of the step, or rounds above 1 and every entry is NaN,
    for instance from (1, 0, 5)/sqrt 26 and the tangent step (0, 2^-27, 0); both points are accepted by isInM.
32. **Robots** (C68): a CartesianProduct directly in a RobotManifold (src/main.cpp) is framed as a robot, so the picture
    does not tell robot(R3xSO3) from robot(robot(R3, SO3)); the program itself prints such a tree.
33. **Calls on destroyed manifolds** (C70): pseudoLog0, createRandomPoint(out), limitMap, the four magnitudes, display,
    description, name, lock, isLocked, getInstanceId, isSameType and getNewCopy (and Point::pseudoLog0(out),
    typicalMagnitude, trustMagnitude) have no `isValid()` assertion and run on a destroyed manifold; multiply writes the
    lock of its argument and has already changed the name of the product when it finds out that the argument is gone.
    ~RefCounter refuses to destroy a manifold that still has points, but ~ValidManifold has run before it, so that the
    throw leaves points whose every protected call is refused.
34. **Random tangent vectors** (C74): S2::randVec divides the projected draw by its norm whatever that norm is.  A draw equal
    to the point (1, 1, 0)/sqrt 2 returns the point itself, the normal direction, which isInTxM rejects; a draw parallel
    to (1, 0, 0) returns NaN.  The bound of C74_doubles tells how far from parallel is enough.
35. **pseudoLog of small rotations** (C75): ExpMapMatrix::logarithm returns the upper triangle of the matrix when its norm is
    below 1e-8, the antisymmetric part otherwise; the logarithm of the inverse then reads the lower triangle.  About
    (1, 1, 1), the two differ by the square of the angle: pseudoLog(x, y) is not -pseudoLog(y, x).
36. **The logarithm at half turns** (C76): the two quaternions of one rotation give the same vector in doubles, except where the
    computed scalar part is zero.  From (1,0,0,0) and from (-1,0,0,0), the half turn (0,1,0,0) is reached by opposite
    vectors of length pi (C76_half_turn_refuted): pseudoLog is then not a function of the two rotations.
37. **The zero move on the sphere** (C77): S2::retractation_ divides by the norm even when the vector is zero, so that a zero
    move is not the identity in doubles unless the computed norm is exactly one (C77_sphere_refuted); the rotation maps
    do not renormalise, and leave the point as it is.

## 8. Testing the theorems

Each line of `seeded/LOG.jsonl` is one wrong program: a model definition is edited in a scratch copy, everything is
rebuilt, every proof that no longer goes through is replaced by Admitted in the scratch copy, and the theorems of
MANIFEST.json that are broken, or whose Print Assumptions then mention such a lemma, are recorded as failed.
`proofs_failed` names the proofs that broke first. A theorem recorded as failed is one whose proof no longer goes
through; that is what a wrong program should cause, but it does not by itself show that the theorem's statement has
become false, and an edit to a definition used everywhere (`multiply`, `assign_point`) breaks many proofs whose
statements are unaffected (B15 is such a case: the edit removes an assertion Eigen repeats). `not_rechecked` names
theorems of files that did not exist yet or were not rebuilt in that run. B12 is a control run without any edit: no
theorem fails. Attempts whose edit did not typecheck are kept and marked. `theorems_tightened` names the theorems
changed because of that attempt.
