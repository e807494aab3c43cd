{"id": "C01", "title": "Product dimensions and layout", "statement": "A CartesianProduct built by any sequence of successful multiply calls has dim, tangentDim and representationDim equal to the sums over the multiplied factors, numberOfSubManifolds equal to the number of calls, and the i-th factor's slice of a representation (tangent) vector starts at the sum of the representation (tangent) dims of the factors before it.", "quantifier": "every sequence of multiply calls with any factors, nested to any depth", "why_tests_cant": "tests build a few fixed products; the layout must hold for every factor list and nesting", "anchors": ["src/CartesianProduct.cpp: CartesianProduct::multiply, constructors", "include/manifolds/Manifold.h: getStart, getDim", "include/manifolds/CartesianProduct.h: startR, startT"]}
{"id": "C02", "title": "Views tile the vector", "statement": "On a product, the views getView/getConstView for i = 0..numberOfSubManifolds-1 are in range, pairwise disjoint and cover the vector in order (their concatenation is the vector); writing through view i changes exactly those coordinates.", "quantifier": "every product, every vector, every index", "why_tests_cant": "requires all products and all vectors", "anchors": ["include/manifolds/Manifold.h: getView, getConstView", "include/manifolds/CartesianProduct.h"]}
{"id": "C03", "title": "Product vector operations act componentwise", "statement": "retractation, pseudoLog, pseudoLog0, setZero, forceOnM, forceOnTxM, limitMap, getTypicalMagnitude and getTrustMagnitude on a CartesianProduct give exactly the concatenation of the factors' results on the factors' slices, whatever the previous content of the output, and fail if a factor fails.", "quantifier": "every product tree, all inputs of the right size, any scalar arithmetic", "why_tests_cant": "tests use a handful of products and check with tolerances; the claim is bit-exact for every nesting", "anchors": ["src/CartesianProduct.cpp"]}
{"id": "C04", "title": "retractation then pseudoLog0 / pseudoLog round trips on nested products of R^n and SO(3)", "statement": "For a manifold built from RealSpace and SO3 (either map) by products, pseudoLog(x, retractation(x, v)) = v for every point x on the manifold and every tangent vector whose rotation parts are shorter than pi (and not below the series switch 1e-4), and pseudoLog0(retractation(0, v)) = v.", "quantifier": "all trees, points, tangent vectors in the domain", "why_tests_cant": "continuum of inputs and unbounded nesting", "anchors": ["src/CartesianProduct.cpp", "src/RealSpace.cpp", "src/ExpMapMatrix.cpp", "src/ExpMapQuaternion.cpp"]}
{"id": "C05", "title": "retractation composed with pseudoLog returns the target", "statement": "retractation(x, pseudoLog(x, y)) represents the same element as y, for all points x, y of R^n and SO(3) at relative rotation angle below pi; on S2 the library's pseudoLog is not an inverse of its retractation.", "quantifier": "all pairs of points", "why_tests_cant": "continuum; the failing set (angle pi, S2) is easily missed by random tests", "anchors": ["src/S2.cpp: logarithm, retractation_", "src/ExpMapMatrix.cpp: logarithm", "src/ExpMapQuaternion.cpp: logarithm"]}
{"id": "C06", "title": "Jacobian application agrees with the Jacobian", "statement": "On every manifold whose diffRetractation (diffPseudoLog0) returns, applyDiffRetractation(in) = in * diffRetractation(x) and applyDiffPseudoLog0(in) = in * diffPseudoLog0(x), including nested products, where the Jacobian is block diagonal.", "quantifier": "all trees, matrices with any number of rows, points", "why_tests_cant": "unbounded sizes and nesting", "anchors": ["src/CartesianProduct.cpp: diffRetractation_, applyDiffRetractation_", "src/ExpMapMatrix.cpp", "src/ExpMapQuaternion.cpp", "src/RealSpace.cpp"]}
{"id": "C07", "title": "diffRetractation is the derivative of retractation at 0", "statement": "Each column of diffRetractation(x) is the derivative at t=0 of retractation(x, t e_j), on RealSpace, both SO3 maps and their products; on S2 applyDiffRetractation applies the derivative of retractation at 0.", "quantifier": "all points and directions", "why_tests_cant": "tests compare finite differences at one point with tolerance", "anchors": ["src/ExpMapMatrix.cpp: diffRetractation_", "src/ExpMapQuaternion.cpp: diffRetractation_", "src/S2.cpp: applyDiffRetractation_"]}
{"id": "C08", "title": "diffPseudoLog0 is the derivative of pseudoLog0", "statement": "At every point of SO(3) off the series switches the matrix returned by diffPseudoLog0 is the derivative of pseudoLog0 along every direction of the representation space; the series branch of the matrix map has the right limit coefficient (-1/6).", "quantifier": "all points and directions", "why_tests_cant": "the code itself says it does not know how to test the series branch", "anchors": ["src/ExpMapQuaternion.cpp: diffPseudoLog0_", "src/ExpMapMatrix.cpp: diffPseudoLog0_"]}
{"id": "C09", "title": "Transport on products acts blockwise", "statement": "applyTransport on a product transports each row block with the matching factor, for any number of columns.", "quantifier": "all products, matrices, x, v", "why_tests_cant": "unbounded", "anchors": ["src/CartesianProduct.cpp: applyTransport_"]}
{"id": "C10", "title": "applyInvTransport undoes applyTransport on every manifold", "statement": "For x on the manifold and v tangent, applyInvTransport(applyTransport(H)) = H, on elementary manifolds and products.", "quantifier": "all manifolds, H, x, v", "why_tests_cant": "no test calls applyInvTransport on a product", "anchors": ["src/CartesianProduct.cpp: applyInvTransport_", "src/S2.cpp: applyInvTransport_"]}
{"id": "C11", "title": "isInM on a product is the conjunction of the factors at the requested precision", "statement": "P.isInM(val, prec) holds iff every factor's slice satisfies isInM with the same prec; and isInM honours its precision argument on every elementary manifold.", "quantifier": "all products, values and precisions", "why_tests_cant": "tests only use the default precision", "anchors": ["src/CartesianProduct.cpp: isInM_", "src/ExpMapMatrix.cpp: isInM_", "src/Manifold.cpp: isInM"]}
{"id": "C12", "title": "Tangent membership equals the constraint matrix test", "statement": "tangentConstraint(x) is the (tangentDim-dim) x tangentDim block-diagonal matrix C such that isInTxM(x, v, prec) holds iff every entry of C v is below prec in absolute value.", "quantifier": "all trees, x, v, prec", "why_tests_cant": "unbounded", "anchors": ["src/CartesianProduct.cpp: tangentConstraint_, isInTxM_", "src/S2.cpp"]}
{"id": "C13", "title": "S2 retractation lands on the sphere", "statement": "For x on the unit sphere and any v accepted by retractation's tangent check (|x.v| < 1e-8), the result is finite and has norm exactly 1 (in exact arithmetic).", "quantifier": "all x, v", "why_tests_cant": "continuum", "anchors": ["src/S2.cpp: retractation_", "src/Manifold.cpp: retractation"]}
{"id": "C14", "title": "S2 forceOnTxM is the orthogonal projection", "statement": "For |x|=1, forceOnTxM(w) is tangent at x, is the closest tangent vector to w, fixes tangent vectors and is idempotent; projRows/projCols/projVec agree with it row/column wise.", "quantifier": "all x, w, matrices", "why_tests_cant": "continuum", "anchors": ["src/S2.cpp: forceOnTxM_, projVec, projRows, projCols"]}
{"id": "C15", "title": "Identity on the tangent space", "statement": "getIdentityOnTxM(x) maps every tangent vector to itself and each of its columns is tangent, on every manifold and product, regardless of previous matrix content.", "quantifier": "all trees, x, v", "why_tests_cant": "unbounded", "anchors": ["src/CartesianProduct.cpp: getIdentityOnTxM_", "src/S2.cpp: getIdentityOnTxM_"]}
{"id": "C16", "title": "S2 transport is an isometry between tangent spaces", "statement": "For |x|=1 and tangent v, applyTransport maps tangent vectors at x to tangent vectors at y = retractation(x,v), preserves inner products, maps x to y, and applyInvTransport is its exact inverse; the antipodal assertion of computeRotBetweenVec can never fire.", "quantifier": "all x, v, matrices with any number of columns", "why_tests_cant": "continuum", "anchors": ["src/S2.cpp: applyTransport_", "src/utils.cpp: computeRotBetweenVec, hat, hat2"]}
{"id": "C17", "title": "S2 pseudoLog and distance", "statement": "For x, y on the sphere with y different from x and -x, pseudoLog(x,y) is finite, tangent at x, has norm distance(x,y), and following the great circle in that direction reaches y; pseudoLog(x,x) = 0.", "quantifier": "all x, y", "why_tests_cant": "the singular points are measure zero", "anchors": ["src/S2.cpp: logarithm, distance"]}
{"id": "C18", "title": "Matrix exponential lands on SO(3)", "statement": "ExpMapMatrix retractation of an exact rotation by any v with |v| < pi is a rotation (orthogonal, determinant 1): exactly when |v|^2 >= 1e-8, otherwise with an orthogonality defect bounded by 1e-24, so isInM accepts it.", "quantifier": "all rotations x and all v", "why_tests_cant": "continuum", "anchors": ["src/ExpMapMatrix.cpp: exponential, retractation_"]}
{"id": "C19", "title": "Quaternion exponential lands on the unit sphere", "statement": "ExpMapQuaternion retractation of a unit quaternion by any |v| < pi is unit: exactly when |v|^2 >= 1e-8, otherwise within 1e-24; the result does not depend on uninitialised temporaries.", "quantifier": "all unit x and v", "why_tests_cant": "continuum", "anchors": ["src/ExpMapQuaternion.cpp: exponential, retractation_, ReverseQuaternion"]}
{"id": "C20", "title": "The two SO(3) maps agree", "statement": "The rotation matrix of the quaternion exponential of v equals the matrix exponential of v, retractation in the two representations commutes with the conversion, and the two pseudoLog0 agree on corresponding points.", "quantifier": "all v, q", "why_tests_cant": "continuum", "anchors": ["src/ExpMapMatrix.cpp", "src/ExpMapQuaternion.cpp"]}
{"id": "C21", "title": "Quaternion logarithm respects the double cover", "statement": "pseudoLog0(q) = pseudoLog0(-q), the result has norm at most pi, and exp(pseudoLog0(q)) is q or -q for every unit q.", "quantifier": "all unit quaternions", "why_tests_cant": "continuum", "anchors": ["src/ExpMapQuaternion.cpp: logarithm"]}
{"id": "C22", "title": "Matrix logarithm is total on accepted points", "statement": "pseudoLog0 returns a finite vector whose exponential is the given matrix, for every matrix accepted by isInM.", "quantifier": "all 3x3 matrices accepted by isInM", "why_tests_cant": "the failing sets (angle pi, trace slightly above 3) are thin", "anchors": ["src/ExpMapMatrix.cpp: logarithm, isInM_"]}
{"id": "C23", "title": "Zero element and zero vector", "statement": "setZero gives a point accepted by isInM at any positive precision; retractation(x, 0) = x for every x on the manifold; pseudoLog0(zero) = 0 and pseudoLog(x, x) = 0 where pseudoLog is defined.", "quantifier": "all manifolds built by the API, all points", "why_tests_cant": "unbounded nesting", "anchors": ["src/Manifold.cpp: setZero", "all setZero_"]}
{"id": "C24", "title": "forceOnM returns a point of the manifold and fixes points of the manifold", "statement": "For every input accepted by forceOnM the output is on the manifold exactly, and an input on the manifold is returned unchanged, on every tree.", "quantifier": "all trees and inputs", "why_tests_cant": "continuum", "anchors": ["src/ExpMapMatrix.cpp: forceOnM_", "src/ExpMapQuaternion.cpp: forceOnM_", "src/S2.cpp: forceOnM_", "src/CartesianProduct.cpp: forceOnM_"]}
{"id": "C25", "title": "forceOnM returns the closest point", "statement": "The output of forceOnM is a closest point of the manifold to the input, as documented.", "quantifier": "all inputs", "why_tests_cant": "requires comparing with every point of the manifold", "anchors": ["include/manifolds/Manifold.h: forceOnM", "src/ExpMapMatrix.cpp: forceOnM_"]}
{"id": "C26", "title": "limitMap bounds the domain of retractation", "statement": "Any tangent vector whose coordinates are strictly below limitMap in absolute value is accepted by retractation (no assertion) on every manifold without S2 tangency constraints, and on S2 if it is tangent.", "quantifier": "all trees, x, v", "why_tests_cant": "continuum", "anchors": ["include/manifolds/SO3.h: limitMap_", "src/ExpMapMatrix.cpp: exponential"]}
{"id": "C27", "title": "isSameTopology is structural equality", "statement": "isSameTopology is an equivalence relation that holds iff the two manifolds have the same tree of factor classes and R^n dimensions; manifolds with the same topology have equal dims and layouts and all their map operations coincide.", "quantifier": "all pairs/triples of manifolds", "why_tests_cant": "unbounded trees", "anchors": ["src/CartesianProduct.cpp: isSameTopology", "src/RealSpace.cpp", "src/S2.cpp", "include/manifolds/SO3.h"]}
{"id": "C28", "title": "Type identifiers separate the classes", "statement": "isSameType(a,b) holds iff a and b are of the same library class (CartesianPower counting as CartesianProduct), getTypeId is a function of the class only; the hash finalizer and each mixing round are injective so equal-length names differing in a single 4-byte block never collide.", "quantifier": "all manifolds; all 32-bit words; all names", "why_tests_cant": "2^32 words and all names", "anchors": ["include/manifolds/utils.h: computeHash, finalize", "getTypeId"]}
{"id": "C29", "title": "Locked manifolds never change", "statement": "Once a manifold has been locked (by creating a point, being multiplied into a product or copied by getNewCopy), it stays locked, and in every later history its dims, factors, layout and magnitudes are those it had at locking time; attempts throw std::runtime_error.", "quantifier": "all operation histories", "why_tests_cant": "histories are unbounded", "anchors": ["src/Manifold.cpp: lock, testLock, setDimension", "src/CartesianProduct.cpp: multiply", "setTypicalMagnitude"]}
{"id": "C30", "title": "Reference counts equal the number of live points", "statement": "In every history, a manifold object's reference count equals the number of live Points/SubPoints attached to it, so destroying a manifold with attached points is always reported and destroying one without is never reported.", "quantifier": "all histories of creating, copying, assigning, sub-indexing and destroying points and manifolds", "why_tests_cant": "unbounded histories", "anchors": ["include/manifolds/RefCounter.h", "src/Point.cpp"]}
{"id": "C31", "title": "Instance identifiers", "statement": "Manifolds constructed (not copied) in any history have pairwise distinct instance ids; the factor stored in a product has the id of the manifold that was multiplied; ids never change.", "quantifier": "all histories", "why_tests_cant": "unbounded histories", "anchors": ["src/Manifold.cpp: Manifold::Manifold, getInstanceId, getNewCopy"]}
{"id": "C32", "title": "Products own snapshots of their factors", "statement": "Destroying or modifying the original manifolds after multiply never changes the product's behaviour nor makes it invalid: every component reachable from a live manifold is alive and unchanged.", "quantifier": "all histories", "why_tests_cant": "unbounded histories", "anchors": ["src/CartesianProduct.cpp: multiply", "src/Manifold.cpp: copyManifold, getNewCopy"]}
{"id": "C33", "title": "A failing multiply leaves the product unchanged", "statement": "If multiply throws, the product's name, dims, factors and lock state are unchanged.", "quantifier": "all products and factors, including the product itself", "why_tests_cant": "self-multiplication is never tested", "anchors": ["src/CartesianProduct.cpp: multiply"]}
{"id": "C34", "title": "Temporary buffer is always large enough", "statement": "After any sequence of getMap requests the buffer holds at least the requested number of doubles, its capacity is the initial capacity times a power of two, never shrinks, less than doubles the largest request when it grows, each allocation is released exactly once with its own size, and the growth loop terminates for every request up to 2^63.", "quantifier": "all request sequences", "why_tests_cant": "unbounded sequences and sizes", "anchors": ["src/ReusableTemporaryMap.cpp", "include/manifolds/ReusableTemporaryMap.h"]}
{"id": "C35", "title": "Temporary buffer survives allocation failure", "statement": "If growing the buffer fails with std::bad_alloc, the object remains destructible without a double free.", "quantifier": "every allocation-failure point in every request sequence", "why_tests_cant": "allocation failures are not injected by tests", "anchors": ["src/ReusableTemporaryMap.cpp: reallocate_"]}
{"id": "C36", "title": "In-place calls give the same result", "statement": "Calling retractation (hence Point::increment), forceOnM, forceOnTxM with the output aliasing the input gives the same result as with separate buffers, and writes nothing outside the output range, on every tree.", "quantifier": "all trees, all memory contents, all placements with output equal to or disjoint from the inputs", "why_tests_cant": "aliasing times nesting is unbounded", "anchors": ["src/Point.cpp: increment", "src/CartesianProduct.cpp", "src/ExpMapMatrix.cpp", "src/ExpMapQuaternion.cpp", "src/S2.cpp", "src/RealSpace.cpp"]}
{"id": "C37", "title": "Sub-points write through, copies do not", "statement": "Writing through a SubPoint reached by any index path changes exactly the matching slice of the owning Point's value; Point copies have their own storage; copying or reading never changes any value.", "quantifier": "all paths, all trees, all values", "why_tests_cant": "unbounded depth", "anchors": ["src/Point.cpp: SubPoint::operator(), Point::Point"]}
{"id": "C38", "title": "Point operators agree with the manifold operations", "statement": "x + v, x.retractation(v), x.increment(v) produce the same value; y - x = x.pseudoLog(y) = manifold pseudoLog(x,y) on every manifold; createPoint(val) throws iff isInM rejects val.", "quantifier": "all manifolds and points", "why_tests_cant": "operator- is only tested on R^3", "anchors": ["src/Point.cpp: operator+, operator-, increment, retractation"]}
{"id": "C39", "title": "Assignment keeps points on their manifold", "statement": "If x and y are on their manifolds and x = y is accepted, x is still on its manifold.", "quantifier": "all pairs of manifolds and points", "why_tests_cant": "mixed-manifold assignment untested", "anchors": ["src/Point.cpp: Point::operator="]}
{"id": "C40", "title": "Random points are on the manifold", "statement": "For every draw with components in [-1,1] (not all zero on S2), createRandomPoint(coeff) returns a point accepted by isInM, for |coeff| < pi/sqrt(3).", "quantifier": "all draws, all trees, all coeffs", "why_tests_cant": "all random draws", "anchors": ["include/manifolds/SO3.h: createRandomPoint_", "src/S2.cpp: rand", "src/RealSpace.cpp"]}
{"id": "C41", "title": "Drift over many increments", "statement": "Starting from an exact rotation, after any number k of increments (each |v|<pi) the orthogonality defect is at most (1+1e-24)^k - 1 in exact arithmetic, so isInM accepts for every k up to 1e12.", "quantifier": "all increment sequences", "why_tests_cant": "unbounded sequences", "anchors": ["src/ExpMapMatrix.cpp", "src/ExpMapQuaternion.cpp", "src/Point.cpp: increment"]}
{"id": "C42", "title": "Names and descriptions reflect the structure", "statement": "The name of a product built by multiply of factors of positive dimension is the factors' names joined by x; description prints one line per leaf in order, properly bracketed, every line starting with the prefix.", "quantifier": "all trees", "why_tests_cant": "unbounded nesting", "anchors": ["src/CartesianProduct.cpp: multiply, description", "src/Manifold.cpp: description"]}
{"id": "C43", "title": "CartesianPower is the n-fold product", "statement": "CartesianPower(M,n) has the same topology, dims and operations as the product obtained by n multiplications by M; n <= 0 gives the empty product.", "quantifier": "all M, n", "why_tests_cant": "all n", "anchors": ["src/CartesianPower.cpp"]}
{"id": "C44", "title": "Const operations are safe to run concurrently", "statement": "Two threads calling applyDiffRetractation on the same const SO3 object get the same results as sequential calls; manifolds created by two threads get distinct ids.", "quantifier": "all interleavings", "why_tests_cant": "schedules are not controlled by tests", "anchors": ["include/manifolds/SO3.h: bufferMap_", "src/Manifold.cpp: manifoldCounter_++"]}
{"id": "C45", "title": "Overlap detection", "statement": "areOverlappingData(a,b) returns true iff the two ranges share an address.", "quantifier": "all base addresses and sizes", "why_tests_cant": "all placements", "anchors": ["src/ExpMapMatrix.cpp: utility::areOverlappingData"]}
{"id": "C46", "title": "Every accepted product supports points", "statement": "createPoint/getZero succeed on every manifold built through the API.", "quantifier": "all manifolds incl. empty products", "why_tests_cant": "edge cases", "anchors": ["src/Point.cpp: PointMemory::getMem", "src/Manifold.cpp: getZero"]}
{"id": "C47", "title": "Operations never touch memory outside their arguments", "statement": "On a manifold built through the API, every operation, called with arguments of any size and content, returns or stops at an assertion; it never reads or writes outside a buffer (raw data() pointers of SO3, unchecked operator[] of the start tables).", "quantifier": "all built manifolds, all argument sizes and contents, all indices", "why_tests_cant": "out-of-bounds accesses depend on sizes no test tries and are often silent", "anchors": ["include/manifolds/SO3.h", "src/ExpMapMatrix.cpp", "src/ExpMapQuaternion.cpp", "src/CartesianProduct.cpp", "include/manifolds/Manifold.h: getView, getStart"]}
{"id": "C48", "title": "The text of a point lists its elementary parts", "statement": "toString prints one entry per elementary manifold, in order, with that manifold's slice of the vector, the given prefix and two spaces per enclosing product, one newline between entries, with matching brackets.", "quantifier": "all trees, all points, all prefixes, any number format", "why_tests_cant": "tests print nothing or a single flat manifold", "anchors": ["src/CartesianProduct.cpp: toString", "src/RealSpace.cpp: toString", "src/S2.cpp: toString", "include/manifolds/SO3.h: toString", "src/Point.cpp: ConstSubPoint::toString"]}
{"id": "C49", "title": "Points stay on the manifold in IEEE double arithmetic", "statement": "In IEEE-754 double arithmetic, with a libm whose cos and sin are accurate to 2 half-ulps, repeated Point::increment keeps every S2 and SO3 slice finite and within an explicit, linearly growing distance of the manifold; isInM computed in the same arithmetic keeps accepting the point for the first 71000 increments from an exact point; each retractation from a point within 1/3000 of the manifold is within 8, 124 or 82 times 2^-53 of the exact one; rotation increments not longer than 3.14 never trip the M_PI assertion.", "quantifier": "for all trees, all double points, all sequences of double tangent vectors (S2 slices below 2^400), all k", "why_tests_cant": "rounding errors depend on 2^64 values per coordinate and accumulate along arbitrarily long runs; tests use a few short runs with loose tolerances", "anchors": ["src/S2.cpp:88-94", "src/ExpMapMatrix.cpp:62-94", "src/ExpMapMatrix.cpp:131-139", "src/ExpMapQuaternion.cpp:68-97", "src/Point.cpp:116-120"]}
{"id": "C50", "title": "Magnitudes are stored and returned", "statement": "getTypicalMagnitude and getTrustMagnitude return what the constructor or the last setter call stored, on a product the concatenation of the factors' magnitudes; the setters change nothing else; the getters always return when given a vector of the tangent dimension.", "quantifier": "all trees built through the API, all histories of setter calls, all scalars", "why_tests_cant": "a test sees a few sizes and nestings; the size of the vector given to a RealSpace setter is unchecked and only shows at a later getter call", "anchors": ["src/RealSpace.cpp:178-207", "src/S2.cpp:255-279", "include/manifolds/SO3.h:285-321", "src/CartesianProduct.cpp:314-324"]}
{"id": "C51", "title": "Round trips in IEEE double arithmetic", "statement": "Computed in IEEE doubles, pseudoLog(x, retractation(x, v)) returns v up to a stated multiple of 2^-53: on R^n relative to |x| and |v|; on SO3 with quaternions within 67500 * 2^-53 for every rotation up to 3.14; on SO3 with matrices for angles up to 1e-9 and for angles with sin^2 above 153000 * 2^-53 + 2100 d (d the distance of x to the group), within 39000 * 2^-53 + 522 d up to pi/2 and (21500 * 2^-53 + 288 d)/sin^2 beyond; on products factor by factor, no NaN and no refusal. In between (angles near 1.5e-8) the matrix logarithm may return NaN.", "quantifier": "all trees without sphere factor, all doubles x within d <= 1/3000 of the manifold, all v in those ranges, all libraries with the stated accuracy", "why_tests_cant": "the error bound is over all doubles; tests use random rotations, which never fall between 1e-8 and 4e-6", "anchors": ["src/ExpMapMatrix.cpp:96-124", "src/ExpMapQuaternion.cpp:99-126", "src/RealSpace.cpp:105-110", "src/CartesianProduct.cpp:160-176"]}
{"id": "C52", "title": "Matrix views tile the matrix", "statement": "For every product, view (ir, ic) of a matrix taken with getView<Dr, Dc> or getConstView<Dr, Dc> is the block of the rows of factor ir and the columns of factor ic (all rows or columns for F); the blocks cover every entry exactly once; writing through a view replaces exactly the entries of that block; an index out of range, or a matrix of another size than the product's, is refused.", "quantifier": "all products, all nine combinations of R, T, F, all indices, all matrices, any scalar type", "why_tests_cant": "The tests only look at a few blocks of particular products; index arithmetic errors in template specialisations show only for particular combinations and positions.", "anchors": ["include/manifolds/Manifold.h:133-144", "include/manifolds/Manifold.h:486-590", "include/manifolds/view.h:26-72"]}
{"id": "C53", "title": "The maps commute with the symmetries of the manifold", "statement": "Choose one symmetry per elementary manifold of a nested product: a translation of each R^n, a rotation of each sphere, a left multiplication by a rotation (matrix or unit quaternion) of each SO(3). retractation, pseudoLog, forceOnTxM and forceOnM commute with it: a finite result at the moved arguments is the moved result, and isInM and isInTxM give the same answers. Nothing in the library depends on where the point is.", "quantifier": "For every manifold built by the constructors, every family of symmetries, every point and tangent vector of the right size (on the manifold or not), every content of the output.", "why_tests_cant": "A test compares a few poses; that no pose is special is a statement about all points and all rotations at once.", "anchors": ["src/S2.cpp:49-113", "src/S2.cpp:237-250", "src/ExpMapMatrix.cpp:62-160", "src/ExpMapQuaternion.cpp:68-155", "src/RealSpace.cpp:54-110", "src/CartesianProduct.cpp:50-70", "src/CartesianProduct.cpp:158-180", "src/CartesianProduct.cpp:290-310"]}
{"id": "C54", "title": "forceOnM in doubles, and staying on the manifold for ever", "statement": "In IEEE-754 double arithmetic, whenever forceOnM returns, its result is on the manifold up to 27200 * 2^-53, is accepted by isInM, and agrees with the exact repair up to rounding: R^n copied, sphere and quaternion slices within 5 * 2^-53 of the normalised input, a matrix slice within 2720 * 2^-53 of the orthogonal QR factor of the input; a matrix with an infinite or NaN entry, or further than 0.175 from a rotation, is always refused. A point within 3.3e-4 of the manifold is always accepted. Hence alternating retractation and forceOnM keeps every point within 27200 * 2^-53 of the manifold, for ever.", "quantifier": "for all manifolds, all doubles (matrix slices: including infinities and NaN), all buffers, any number of steps", "why_tests_cant": "Tests run a few steps; the bound on rounding and the refusal of every non-finite matrix are statements about all 64-bit patterns, and 'for ever' is about unboundedly many steps.", "anchors": ["src/ExpMapMatrix.cpp:141-175", "src/ExpMapQuaternion.cpp:141-148", "src/S2.cpp:55-58", "src/RealSpace.cpp:60", "src/Manifold.cpp:69-75", "src/CartesianProduct.cpp:60-64"]}
{"id": "C55", "title": "Vector transport is one linear isometry; multiplying by its inverse on the right undoes it", "statement": "On every tree of manifolds, from a point of the manifold along a tangent vector, a single linear, dot-product-preserving map f of the tangent coordinates gives every column returned by applyTransport and every row returned by applyInvTransportOnTheRight; f sends the vectors the library accepts as tangent at the starting point exactly to those it accepts at the point reached by retractation, at every precision; hence (A T^-1)(T H) = A H entry by entry.", "quantifier": "all trees built by the library's constructors, all exact points and tangent vectors, any number of rows of A and columns of H, any output matrix of the right shape", "why_tests_cant": "the tests try applyInvTransportOnTheRight on single manifolds with a handful of random matrices; that one map serves both functions on every nested product, for any number of rows and columns, needs the induction over the tree", "anchors": ["src/S2.cpp:190-230", "src/CartesianProduct.cpp:238-273", "src/Manifold.cpp:241-283"]}
{"id": "C56", "title": "The release build agrees with the debug build and never refuses a retraction", "statement": "With NDEBUG every call that returns in a debug build returns the same result; with vectors of the right sizes retractation always stores a result; from a point of the manifold, whatever the finite vector (tangent or not, longer than pi or not) that is not the opposite of the point on an S2 slice, the result is x+v, (x+v)/|x+v|, or the product with the rotation by v, within 1e-24 of the manifold; any number of increments of any length keeps every rotation slice within (1+1e-24)^k-1; a vector lengthened by k full turns gives the same matrix and the same quaternion up to (-1)^k. Every call the debug build refuses is harmless in the release build.", "quantifier": "refinement and totality: every scalar type, every tree, every argument; numbers: all trees built by the library's constructors, all exact points, all finite vectors, any number of increments and of turns", "why_tests_cant": "the test suite is built with assertions on, and no test compares the two builds; the calls the assertions refuse are by definition never run by it", "anchors": ["include/manifolds/mnf_assert.h:29-42", "src/Manifold.cpp:125-140", "src/ExpMapMatrix.cpp:70-94", "src/ExpMapQuaternion.cpp:77-97", "src/S2.cpp:88-94"]}
{"id": "C57", "title": "NaN and infinities do not pass the runtime checks", "statement": "A point holding a NaN or an infinity is never accepted: isInM answers false, and retractation, pseudoLog and forceOnM given one (in the point or in the tangent vector) stop on an assertion instead of returning NaNs.", "quantifier": "For every manifold tree of any shape and size, every math library, every precision argument and all double arguments of the right sizes (NaN, infinities, signed zeros, subnormals included).", "why_tests_cant": "Tests use finite inputs; the claim is about every placement of NaN or infinity in inputs of any size.", "anchors": ["src/S2.cpp:48-52", "src/ExpMapMatrix.cpp:62-95", "src/ExpMapMatrix.cpp:131-174", "src/ExpMapQuaternion.cpp:60-110", "src/RealSpace.cpp:54-58", "src/Manifold.cpp:60-75"]}
{"id": "C58", "title": "The retraction at a point is one-to-one and reaches the open half around it", "statement": "At every point the library accepts, two tangent vectors whose retractions return the same point of the manifold (unit quaternions up to sign) are equal, the Taylor branches included.  From a point of the manifold the retraction reaches only the open half around it (S2 slices in the open hemisphere, rotation slices by angles below pi), and it reaches every point of that half: exactly on R^n and S2, within 1e-20 on rotation slices.", "quantifier": "For every manifold tree of any shape and size, every point, all pairs of tangent vectors (exactly tangent on S2), in exact real arithmetic.", "why_tests_cant": "The claim compares all pairs of tangent vectors and every target point; tests check round trips of sampled vectors.", "anchors": ["src/S2.cpp:88-96", "src/ExpMapMatrix.cpp:62-94", "src/ExpMapQuaternion.cpp:68-105", "src/CartesianProduct.cpp:158-170"]}
{"id": "C59", "title": "Increments compose: error of a path, steps along one direction", "statement": "On trees without S2, k increments whose rotation parts are shorter than pi all succeed and end within k*1e-20 of the exact composition of the steps (exactly on it when no rotation part falls in the Taylor branch).  Increments s1 v, ..., sk v along one direction end there too for the single step (s1+...+sk) v; a step and its opposite come back; whole turns come back to the same element of the manifold (quaternions up to sign).  On S2 the same vector is refused after the first step.", "quantifier": "For every manifold tree without S2, every point, every list of increments (up to 1e20 of them with Taylor branches, any number off them), in exact real arithmetic.", "why_tests_cant": "The claim is about paths of arbitrary length; per-step errors of 1e-22 are below what a floating-point test can see, and composition along a direction needs the one-parameter subgroup law.", "anchors": ["src/Point.cpp:116-120", "src/ExpMapMatrix.cpp:62-94", "src/ExpMapQuaternion.cpp:68-105", "src/S2.cpp:88-96"]}
{"id": "C60", "title": "The retraction does not amplify perturbations", "statement": "In exact real arithmetic, on every tree, retracting from x by v and from x' by v' gives points whose stored numbers are no further apart (Euclidean norm) than |x-x'| + sqrt 2 |v-v'|, up to 1e-20 per elementary manifold, and with no such term off the Taylor cutoffs; in particular a step moves the point by at most sqrt 2 |v|. Along paths of any number of increments on trees without S2 the bounds add. The factor sqrt 2 cannot be 1 for the matrix map.", "quantifier": "all trees, all pairs of points and tangent vectors with rotation parts shorter than pi, all paths", "why_tests_cant": "Perturbation bounds are about all pairs of inputs; a test compares finitely many pairs.", "anchors": ["src/S2.cpp:88-96", "src/ExpMapMatrix.cpp:62-94", "src/ExpMapQuaternion.cpp:68-105", "src/CartesianProduct.cpp:158-166", "src/Manifold.cpp:129-138"]}
{"id": "C61", "title": "The norm of pseudoLog is a distance", "statement": "In exact real arithmetic the Euclidean combination of the geodesic distances of the slices (straight line, great circle, rotation angle) is a metric on the points of every tree: non-negative, symmetric, triangle inequality, zero exactly for the same point (quaternions up to sign). Wherever pseudoLog is defined (distinct and not opposite on S2, rotations below pi, by 1e-7 with matrices) its norm is this distance, up to 3e-15 per elementary manifold and exactly off the series; so computed distances are symmetric and satisfy the triangle inequality within that error. The distance is equivalent to the Euclidean distance of the stored numbers, and off the series a retraction moves the point by at most |v|, exactly |v| without S2.", "quantifier": "all trees, all points, all tangent vectors", "why_tests_cant": "A triangle inequality is about all triples of points; a test checks finitely many.", "anchors": ["src/S2.cpp:96-114", "src/ExpMapMatrix.cpp:96-125", "src/ExpMapQuaternion.cpp:99-127", "src/CartesianProduct.cpp:168-176", "src/RealSpace.cpp:105-111"]}
{"id": "C62", "title": "Where a path of increments ends in IEEE double arithmetic", "statement": "On every built tree without S2, n increments computed in doubles end close to the end of the exact path (x + v on R^n, X exp(v) on rotation matrices, q exp(v) on quaternions) from the same starting point with the same increments: every stored number is off by at most n * 372 * 2^-53 on matrices, n * 164 * 2^-53 on quaternions and n * 2B * 2^-53 on R^n, where the exact path stays within B. The errors of the steps add up and are not amplified. Hence two C libraries whose cos and sin are accurate end within twice that of each other, and going back with the opposite increments returns to the start within twice that.", "quantifier": "All built trees without S2, all double points within d of the manifold, all sequences of finite increments accepted by the program with 3d + 1240 n 2^-53 <= 1/1000, all C libraries with cos and sin within 2^-52.", "why_tests_cant": "A test compares a few paths of a few steps with a reference; it cannot bound the accumulated rounding of arbitrarily long paths on arbitrary trees, nor all C libraries.", "anchors": ["src/Point.cpp:116-120", "src/Manifold.cpp:129-138", "src/ExpMapMatrix.cpp:62-110", "src/ExpMapQuaternion.cpp:68-110"]}
{"id": "C63", "title": "Vector transport in IEEE doubles", "statement": "Computed in IEEE doubles on any tree, applyTransport and applyInvTransportOnTheRight return whenever the tangent test accepts the vector, whatever the output matrix held and whatever its width. Parts of the columns (rows) that belong to real spaces and SO3 are copied bit for bit; parts that belong to S2 are finite and within (825 * 2^-53 + 15 d) S of the exact parallel transport, for entries up to S, at every scale S from 2^-900 to 2^900, where d is how far the stored point is off the sphere. The exact transport is the rotation that takes the direction of x to the direction of x + v and leaves what is orthogonal to both. On an elementary S2, transporting there and back returns within five such errors.", "quantifier": "All built trees, all double points within d <= 1/1000 of the manifold, all increments accepted by isInTxM with sphere entries below 2^400, all matrices of any width.", "why_tests_cant": "A test compares a few transported vectors on a few trees; it cannot bound the rounding of all matrices on all trees at all scales.", "anchors": ["src/S2.cpp:189-230", "src/utils.cpp:45-58", "src/Manifold.cpp:241-283", "src/CartesianProduct.cpp:238-273"]}
{"id": "C64", "title": "forceOnTxM in IEEE doubles, and a loop that never stops on any tree", "statement": "Computed in IEEE doubles on any tree, forceOnTxM always returns; parts of real spaces and SO3 are copied bit for bit, parts of S2 with entries up to S are within (50 * 2^-53 + 4 d) S of the orthogonal projection, d being how far the stored point is off the sphere. The result is accepted by isInTxM, hence by retractation, when (340 * 2^-53 + 4 d) S < 9e-9; it is not for long vectors: at (3/5, 4/5, 0) the projection of (1e9, 1, 0) is refused. Hence the loop z = forceOnM(x), x = retractation(z, forceOnTxM(v, z)) never stops on any tree, S2 included, for any number of steps and any ambient vectors v with sphere entries up to 500 and rotation parts up to 3.14, and always ends within 28440 * 2^-53 of the manifold.", "quantifier": "All built trees, all double points within d of the manifold, all ambient vectors in the stated range, any number of steps, all C libraries with cos and sin within 2^-52.", "why_tests_cant": "A test runs the loop for some steps on some trees; it cannot exclude that some vector is refused after projection, nor find where the refusal starts.", "anchors": ["src/S2.cpp:237-248", "src/CartesianProduct.cpp:300-306", "src/Manifold.cpp:325-350"]}
{"id": "C65", "title": "Jacobian of the retraction in IEEE doubles", "statement": "Computed in IEEE doubles, diffRetractation on any tree without S2 returns the block-diagonal matrix whose blocks are the derivatives at 0 of the exact move v -> x o exp(v) of each factor, without any rounding error for real spaces and rotation matrices and within 2^-1075 per entry (the smallest denormal's half) for quaternions. applyDiffRetractation on any tree, S2 included, with matrices of any height and whatever the output held, returns; row by row and factor by factor the result is the row followed back through the exact move: copied bit for bit on real spaces, within 55 * 2^-53 S on rotation matrices, 9 * 2^-53 S on quaternions and (50 * 2^-53 + 8 d) S on S2, for entries up to S, at every scale S from 2^-890 to 2^890, d being how far the stored point is off the manifold.", "quantifier": "All built trees, all double points within d <= 1/1000 of the manifold, all matrices of any height with finite entries.", "why_tests_cant": "A test checks a Jacobian by finite differences at a few points to 1e-8; it cannot show that no entry is ever rounded, nor bound the product's error on all trees at all scales.", "anchors": ["src/ExpMapMatrix.cpp:181-198", "src/ExpMapQuaternion.cpp:155-176", "src/S2.cpp:115-119", "src/S2.cpp:171-175", "src/RealSpace.cpp:115-129", "src/Manifold.cpp:205-221", "src/CartesianProduct.cpp:204-213"]}
{"id": "C66", "title": "Derivative of the logarithm in IEEE doubles", "statement": "Computed in IEEE doubles with an atan2 accurate to 2^-52, diffPseudoLog0 on any tree of real spaces and quaternion rotations, at any point whose quaternions have squared norm within d <= 1/1000 of 1 and scalar part at least 3/10000 (rotations up to a fraction of a milliradian short of a half turn), returns a finite block-diagonal matrix. Each block is within 350 * 2^-53 + 11 d per entry of the derivative of the exact rotation vector at the normalised quaternion, on both sides of the threshold 1e-8 where the code changes formula; blocks of real spaces are exactly the identity. applyDiffPseudoLog0 with matrices of any height and whatever the output held returns the rows followed back through that derivative, within (1082 * 2^-53 + 33 d) times the largest entry of the row.", "quantifier": "every tree of real spaces and quaternion rotations, every such point, every atan2 accurate to 2^-52, every matrix height and scale between 2^-890 and 2^890", "why_tests_cant": "The bound must hold at every double quaternion, including the ones around the 1e-8 switch and close to a half turn where the formula divides by small quantities; a test compares with finite differences at a few random points with a tolerance of 1e-6.", "anchors": ["src/ExpMapQuaternion.cpp:178-259", "src/RealSpace.cpp:126-136", "src/CartesianProduct.cpp:215-236", "src/Manifold.cpp:223-239"]}
{"id": "C67", "title": "pseudoLog between two given points in doubles", "statement": "Computed in IEEE doubles, pseudoLog(x, y) returns the step from x to y on every tree, sphere included: if y is within e of the exact end point of the step v from x (straight line, great circle, rotation) and x within d of the manifold, the result is finite and within a stated multiple of 2^-53 + d + e of v (divided by the sine of the angle on S2, by its square for matrices beyond pi/2). On S2 the result is t/sin t times the part of y orthogonal to x, where t is the angle, and its norm is t. Outside the stated range S2 fails: a step of 2^-27 comes back as exactly 0, and for two points 2^-27 apart, both accepted by isInM, the scalar product can round above 1 and the whole result be NaN.", "quantifier": "all trees, all doubles x within d <= 1/3000 of the manifold, all real steps v and all doubles y within e <= 1/1000 of their end point, sin^2 of the angle above the stated multiple of 2^-53 + d + e, all libraries with the stated accuracy", "why_tests_cant": "tests compare pseudoLog on random points, which are never within 1e-8 of each other nor nearly opposite", "anchors": ["src/S2.cpp:96-113", "src/S2.cpp:124-127", "src/ExpMapMatrix.cpp:96-124", "src/ExpMapQuaternion.cpp:99-126", "src/CartesianProduct.cpp:160-176"]}
{"id": "C68", "title": "Descriptions of robots, the product subclass of the example program", "statement": "RobotManifold (src/main.cpp) is a CartesianProduct which only differs in its description: for every tree mixing the two classes the text is properly framed, every line starts with the prefix and the bars of its open frames, there is one line per elementary manifold in order and one frame per product, and a tree without robots is described exactly as by the library. multiply keeps the classes of the tree and of the copied factor. Two trees with the same description have the same nesting and names, and the same classes if no CartesianProduct is a direct factor of a robot; otherwise the classes are not determined: a robot holding R3xSO3 as a product reads like a robot holding it as a robot.", "quantifier": "all trees of CartesianProduct and RobotManifold objects of any depth and width, all prefixes", "why_tests_cant": "The program prints four particular trees and nothing checks the output; the mix of the two classes has unboundedly many shapes", "anchors": ["src/main.cpp:18-60", "src/main.cpp:62-85", "src/CartesianProduct.cpp:80-129", "src/Manifold.cpp:407-420"]}
{"id": "C69", "title": "Round trip of a retraction in doubles, sphere included", "statement": "Computed in IEEE doubles, pseudoLog(x, retractation(x, v)) is finite and close to v on every tree, with the errors of C51 on R^n and rotations; on an S2 factor it is within (836*2^-53 + 78 d)/sin t of the great-circle step to x + v, where t is the angle between x and x + v and d the distance of x to the manifold: for a tangent v this is atan(|v|/|x|)/|v| times v, not v.", "quantifier": "all built trees with any number of sphere, rotation and real factors, all points within d <= 1/3000 of the manifold, all accepted steps in the stated range, all libm implementations within 2^-52", "why_tests_cant": "The tests compare a few random round trips on one manifold at a time with a tolerance; the bound has to hold for every tree, point, step and rounding", "anchors": ["src/S2.cpp:84-122", "src/CartesianProduct.cpp:158-180", "src/ExpMapMatrix.cpp", "src/ExpMapQuaternion.cpp"]}
{"id": "C70", "title": "Calls on a manifold that no longer exists", "statement": "In a debug build no call on a live manifold is refused by the validity check, however the manifold came to be (built, copied, assigned to, in reused storage). From the destruction of a manifold until its storage is written again, every call through a pointer or point that still refers to it is stopped by the check before anything else of the manifold is read or written; a destruction that throws because points are attached leaves the manifold destroyed all the same. After the storage is overwritten the call is stopped exactly when the number left in place of flag_ is not the flag.", "quantifier": "all sequences of constructions, copies, assignments, attachments, destructions and overwrites in any number of places; all members of Manifold and Point; all outcomes of the other assertions", "why_tests_cant": "A test can only try some sequences of scopes and some members, and what it reads after a destruction is undefined", "anchors": ["include/manifolds/ValidManifold.h:26-57", "include/manifolds/RefCounter.h:36-64", "include/manifolds/Manifold.h:49", "src/Manifold.cpp:39-414", "src/Point.cpp:26-233"]}
{"id": "C71", "title": "Reaching a target in doubles", "statement": "Computed in IEEE doubles, retractation(x, pseudoLog(x, y)) succeeds and lands on y on every tree of real spaces and rotations: on R^n up to 2^-53 (2|x| + 3|y|), on SO3 within a stated multiple of 2^-53 + d + e, and the result is again within 3d + 1240 * 2^-53 of the manifold. On an S2 factor it does not land on y: it lands, within (1900 * 2^-53 + 276 d + 131 e)/sin t, in the direction of x + v, at the angle atan t of x instead of t; from (1,0,0) to (0,1,0) the target is missed by more than 1/2.", "quantifier": "all built trees, all doubles x within d <= 1/3000 of the manifold, all steps v and all doubles y within e <= 1/1000 of their end point, angles in the stated range, all libm implementations within 2^-52", "why_tests_cant": "tests check pseudoLog(retractation(x, v)) = v, never the other order, and with a tolerance on random points", "anchors": ["src/Manifold.cpp:129-138", "src/Manifold.cpp:153-160", "src/S2.cpp:84-122", "src/CartesianProduct.cpp:158-180", "src/ExpMapMatrix.cpp:40-124", "src/ExpMapQuaternion.cpp:40-126"]}
{"id": "C72", "title": "Derivative of the logarithm of rotation matrices in IEEE doubles", "statement": "Computed in IEEE doubles with cos, sin, acos and atan2 accurate to 2^-52, diffPseudoLog0 on any tree of real spaces, quaternion rotations and matrix rotations returns a finite block-diagonal matrix at any point whose matrices are within d per entry of a rotation of angle t between one milliradian and a quarter turn with 2000 d <= sin(t)^2 (quaternions as in C66). The block of a matrix factor is within (324 * 2^-53 + 53 d) / sin t per entry of the 3x9 derivative, with respect to the nine coefficients, of the exact rotation vector (angle from the trace, axis from the antisymmetric part), which on rotations inverts the exponential. applyDiffPseudoLog0 with matrices of any height and whatever the output held returns the rows followed back through that derivative, within (1003 * 2^-53 + 159 d) / sin t times the largest entry of the row.", "quantifier": "every tree of real spaces, quaternion and matrix rotations, every such point, every library function accurate to 2^-52, every order of summation, every matrix height and scale between 2^-890 and 2^890", "why_tests_cant": "The coefficients divide by sin^2 of an angle read off the trace through acos, so errors of the input are amplified differently at every point; the test compares with finite differences at a few random points with a tolerance far above the rounding errors.", "anchors": ["src/ExpMapMatrix.cpp:200-250", "src/CartesianProduct.cpp:215-236", "src/Manifold.cpp:223-239"]}
{"id": "C73", "title": "Random points in IEEE doubles", "statement": "Computed in IEEE doubles with cos and sin accurate to 2^-52, createRandomPoint(coeff) on any tree takes the draws of the elementary factors in order, each once, and returns, whatever the output held, a finite point at most 1240 * 2^-53 off the manifold which isInM accepts at every precision from 0.995e-8. Each factor's slice is made of its own draws: in R^n the correctly rounded products with the coefficient, on S2 the normalised draws up to 4 * 2^-53, in SO3 the exponential of the correctly rounded products up to 124 * 2^-53 (matrices) and 82 * 2^-53 (quaternions). The draws are any doubles in [-1,1], not all three below 2^-100 on a sphere; the coefficient is any double up to 2^900, up to 1.8 as soon as the tree has a rotation.", "quantifier": "every tree, every sequence of draws and start position, every such coefficient, every library function accurate to 2^-52, every order of summation", "why_tests_cant": "A test sees a few draws of one generator; tiny draws (underflow in the norm), coefficients near pi/sqrt 3 and the order in which factors consume the generator on deep trees are not exercised.", "anchors": ["src/Manifold.cpp:95-100", "src/RealSpace.cpp:94-97", "src/S2.cpp:86", "src/S2.cpp:129-135", "include/manifolds/SO3.h:167-173", "src/CartesianProduct.cpp:152-156"]}
{"id": "C74", "title": "Random tangent vectors of the sphere", "statement": "For every point x of the sphere and every draw that is not a multiple of x, S2::randVec(out, x) stores the normalised part of the draw orthogonal to x: a unit vector, tangent at x, accepted by isInTxM, along which x can be moved. Sizes other than three are refused. In IEEE doubles, for every order of summation, the result is finite, of norm 1 up to rounding, and its distance to the exact direction is bounded by the rounding errors divided by the length of the orthogonal part; when that part is not negligible isInTxM accepts it. Draws parallel to x give NaN or vectors that are not tangent.", "quantifier": "All points, all draws, all output contents; all doubles satisfying the stated bounds and all orders of summation.", "why_tests_cant": "The draws are random: the draws close to the direction of x, where the result is not tangent, have a probability no test will meet, and the bound in doubles concerns all the others.", "anchors": ["src/S2.cpp:137-151", "src/S2.cpp:124-127"]}
{"id": "C75", "title": "pseudoLog there and pseudoLog back are opposite", "statement": "For every manifold without sphere factor, every point x and every tangent vector w off the series and near-pi switches, y being the point reached (quaternions up to sign): pseudoLog(x, y) is w and pseudoLog(y, x) is -w; every two points are related by such a w with rotations of at most a half turn. In IEEE doubles, for products of real spaces and rotation matrices, whatever the accuracy of sin and acos and whatever the order of summation, the two results are opposite bit for bit (up to the sign of zeros, infinities and NaN included) as soon as the relative matrix has an entry of 1e-7 on both sides of the diagonal. On the small branch of the matrix logarithm, which reads the upper triangle only, the two results need not be opposite even in exact arithmetic.", "quantifier": "All trees, points and tangent vectors; all doubles in the matrices up to size 2, all real space entries including infinities and NaN, all libm and summation orders.", "why_tests_cant": "Equality of bits for all pairs of points, and the failure needs rotations below 1e-8 whose logarithm nobody compares with the one of the inverse.", "anchors": ["src/Manifold.cpp:156-164", "src/ExpMapMatrix.cpp:96-124", "src/ExpMapQuaternion.cpp:99-130", "src/RealSpace.cpp:105-109", "src/CartesianProduct.cpp:168-180"]}
{"id": "C76", "title": "The two quaternions of a rotation give the same results in doubles", "statement": "In double precision, a point whose SO(3) quaternion is replaced by the opposite quaternion denotes the same point: retractation, any sequence of increments, forceOnM and isInM give the same results up to the sign of each quaternion, bit for bit, and pseudoLog and pseudoLog0 give the same vectors up to the sign of zeros, except from a rotation to one half a turn away, where the vector may be the opposite.", "quantifier": "every tree of elementary manifolds, every two points whose quaternions agree up to sign, every tangent vector and every number of moves, every libm whose atan2 is odd, every order of summation that commutes with signs", "why_tests_cant": "A test compares a few pairs of quaternions with a tolerance; it cannot show that every rounding commutes with the change of sign, nor that two walks never diverge after any number of moves.", "anchors": ["src/ExpMapQuaternion.cpp:66-126", "src/ExpMapQuaternion.cpp:133-148", "src/CartesianProduct.cpp:108-190"]}
{"id": "C77", "title": "Moving by the zero vector changes nothing, in doubles", "statement": "In double precision, retractation by a zero tangent vector returns the same coordinates, bit for bit up to the sign of zeros, any number of times: on real spaces, on rotation matrices and quaternions whether or not they are on the manifold, and on spheres at points whose computed norm is one.", "quantifier": "every tree of elementary manifolds, every finite coordinates, zeros of any sign in the vector, every number of moves, every order of summation, every libm", "why_tests_cant": "A test tries a few points and compares with a tolerance; it cannot show that no coordinate of any point ever drifts by one unit in the last place under repeated zero moves.", "anchors": ["src/RealSpace.cpp:99-103", "src/ExpMapMatrix.cpp:62-94", "src/ExpMapQuaternion.cpp:69-97", "src/S2.cpp:88-94"]}
{"id": "C78", "title": "Rotation matrices and quaternions stay together, in doubles", "statement": "In double precision, a rotation matrix and a quaternion that describe the same rotation, moved by the same tangent vectors, keep describing the same rotation: after n moves the entries differ by at most twice the initial difference plus 1717 n 2^-53. Their logarithms of the same displacement differ by a stated multiple of the rounding unit.", "quantifier": "every finite tangent vectors whose moves return, every number n of moves up to the bound where the drift reaches 1e-3 (about 7e9), every starting rotation within d of the group, two libms of the stated accuracy (they may differ), every order of summation; logarithms at all angles up to 3.14 whose sine is not small, or below 1e-9", "why_tests_cant": "A test runs a few sequences of moves; it cannot bound the difference of the two representations after any number of moves from any start, nor for every library.", "anchors": ["src/ExpMapMatrix.cpp:62-124", "src/ExpMapQuaternion.cpp:68-126"]}
{"id": "C79", "title": "What isInM accepts is close to the manifold, in doubles", "statement": "In double precision, a point that isInM accepts with precision p (at most 1/100) has finite coordinates on its spheres and rotations, and the real numbers they hold are of norm 1 (for matrices: orthogonal, of determinant 1) up to 2.1 max(p, 1.001e-8); a product tests with the default precision whatever precision it receives. Conversely every point within 3.3e-9 of the manifold is accepted with every precision from 0.995e-8 on. A walk that starts from an accepted point stays within 6.4e-8 + 1240 n 2^-53 of the manifold.", "quantifier": "every tree of R^n, S2, SO(3) as matrices or quaternions and products, every vector of doubles (NaN and infinities included), every finite precision up to 1/100 (every precision at all for products), every order of summation, every number n of increments up to 6e9", "why_tests_cant": "A test tries a few points on each side of the tolerance; it cannot exclude that overflow, a NaN or cancellation makes the test accept some far point.", "anchors": ["src/Manifold.cpp:62-67", "src/CartesianProduct.cpp:50-58", "src/S2.cpp:49-53", "src/ExpMapMatrix.cpp:131-139", "src/ExpMapQuaternion.cpp:133-139", "src/RealSpace.cpp:54-58"]}
{"id": "C80", "title": "What isInTxM accepts is nearly tangent, in doubles", "statement": "In double precision, when isInTxM accepts a vector with precision p, every sphere part has finite coordinates and the exact scalar product of point and vector is below p + 4 * 2^-53 * sum |x_i v_i| + 2^-200; products hand the precision down unchanged. Conversely, when the exact scalar product is below p by that same margin (coordinates up to 2^400) the vector is accepted. Hence a retraction that returns has received a vector that is tangent up to 1.001e-8 plus rounding.", "quantifier": "every tree of R^n, S2, SO(3) as matrices or quaternions and products, every pair of vectors of doubles (NaN and infinities included), every finite precision, every order of summation", "why_tests_cant": "A test tries a few vectors; it cannot exclude that overflow, a NaN or cancellation lets some other vector through, nor that a valid one is refused.", "anchors": ["src/Manifold.cpp:325-332", "src/CartesianProduct.cpp:290-299", "src/S2.cpp:237-242", "src/ExpMapMatrix.cpp:295-300", "src/ExpMapQuaternion.cpp:303-308", "src/RealSpace.cpp:161-166", "src/Manifold.cpp:129-138"]}
{"id": "C81", "title": "Points created in doubles are close to their manifold, after any history", "statement": "In double precision and after any history of calls, createPoint(val) that returns gives a point that holds exactly val, within 2.11e-8 of its manifold, and it returns whenever val is within 3.3e-9; x.retractation(v) that returns gives a point within 2.11e-8 wherever x was and whatever the C library; x + v returns only for x within 2.11e-8, and its result is within 6.5e-8.", "quantifier": "every history of calls without assignment or move of manifolds, every live manifold with a non-empty representation, every vector of doubles, every order of summation; every C library (for x + v: of the stated accuracy, tangent vectors with sphere parts below 2^400)", "why_tests_cant": "A test creates a few points in a few programs; it cannot exclude that some history, value or library lets a point far from its manifold be created.", "anchors": ["src/Manifold.cpp:48-60", "src/Manifold.cpp:62-67", "src/Point.cpp:116-127", "src/Point.cpp:178-181"]}
