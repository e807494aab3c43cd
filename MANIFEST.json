{
 "claims": [
  {
   "property": "C01",
   "status": "proved",
   "theorems": [
    "C01_product_layout",
    "C01_products_have_factors"
   ],
   "note": "any scalar type; all reachable products"
  },
  {
   "property": "C02",
   "status": "proved",
   "theorems": [
    "C02_views_tile",
    "C02_view_write_frame",
    "C02_view_refused"
   ],
   "note": "any scalar type; reads, writes with frame, refusals"
  },
  {
   "property": "C03",
   "status": "proved",
   "theorems": [
    "C03_componentwise",
    "C03_componentwise_leaves",
    "C03_output_content_irrelevant"
   ],
   "note": "per product and per leaf of nested products; iff covers failure; output content irrelevant"
  },
  {
   "property": "C04",
   "status": "partial",
   "theorems": [
    "C04_round_trip_partial",
    "C04_round_trip_zero_partial",
    "C04_round_trip_close",
    "C04_matrix_round_trip_iff",
    "C04_matrix_near_pi_refuted"
   ],
   "note": "all trees of R^n and both SO3 maps: exact off the switches, within 1e-16 per entry everywhere below pi (1e-7 margin on the matrix map); exact domain of the matrix map; property as stated refuted near a half turn around a coordinate axis"
  },
  {
   "property": "C05",
   "status": "partial",
   "theorems": [
    "C05_log_then_retract_partial",
    "C05_log_then_retract_close",
    "C05_matrix_near_pi_refuted",
    "C05_s2_refuted"
   ],
   "note": "Every pair of points has a relative vector w (surjectivity of exp). Off the switches pseudoLog returns w and retractation(x,w) is y up to quaternion sign, exactly (C05_log_then_retract_partial); everywhere below pi (1e-7 margin on the matrix map), Taylor branches included, pseudoLog is w within 1e-15 and retractation after pseudoLog is y within 1e-12 (C05_log_then_retract_close). Refuted within 1e-8 of a half turn about a coordinate axis on the matrix map, and on S2 as the property predicts."
  },
  {
   "property": "C06",
   "status": "proved",
   "theorems": [
    "C06_apply_diffRetractation",
    "C06_apply_diffPseudoLog0",
    "C06_jacobians_returned",
    "C06_block_diagonal"
   ],
   "note": "apply = multiply by the Jacobian on every tree and any finite matrix; Jacobians returned exactly on trees without a sphere; block-diagonal on products (any scalar)"
  },
  {
   "property": "C07",
   "status": "proved",
   "theorems": [
    "C07_derivative",
    "C07_columns"
   ],
   "note": "On every tree and at every point on the manifold, along every tangent vector: diffRetractation(x) v (trees without S2) and applyDiffRetractation (all trees, S2 included) are the derivative at 0 of t -> retractation(x, t v); columns are the partial derivatives."
  },
  {
   "property": "C08",
   "status": "partial",
   "theorems": [
    "C08_derivative",
    "C08_regular_rotations",
    "C08_series_coefficient",
    "C08_series_refuted",
    "C08_half_turn_refuted"
   ],
   "note": "Proved on every tree at every point off the switches and off half turns (all rotations with sin(angle) >= 1e-5 for the matrix map; all unit quaternions with w<>0 off the 1e-8 switch), along every direction. The limit coefficient of the series branch is refuted: the true one is -1/6, the returned one +1/5 (11/30 is an integer division). At half turns the quaternion logarithm has no derivative (proved). Not covered: nothing else of the statement."
  },
  {
   "property": "C09",
   "status": "proved",
   "theorems": [
    "C09_transport_blockwise"
   ],
   "note": "any scalar, any number of factors and columns"
  },
  {
   "property": "C10",
   "status": "partial",
   "theorems": [
    "C10_inverse_elementary",
    "C10_product_never_returns",
    "C10_product_refuted"
   ],
   "note": "inverse on elementary manifolds; refuted on products: applyInvTransport_ of a product uses column views and asserts"
  },
  {
   "property": "C11",
   "status": "partial",
   "theorems": [
    "C11_product_partial",
    "C11_elementary_partial",
    "C11_product_precision_refuted",
    "C11_matrix_precision_refuted"
   ],
   "note": "isInM on a product is proved to be the conjunction of the factors at the fixed precision 1e-8 (any arithmetic); S2 and quaternions honour the argument, R^n and the matrix map do not; the stated property is refuted with witnesses in both directions."
  },
  {
   "property": "C12",
   "status": "proved",
   "theorems": [
    "C12_constraint",
    "C12_product"
   ],
   "note": "exact constraint matrix on every tree"
  },
  {
   "property": "C13",
   "status": "proved",
   "theorems": [
    "C13_s2_lands_on_sphere",
    "C13_tree_lands_on_manifold"
   ],
   "note": "exact tangency test decides; also on every tree with S2 factors"
  },
  {
   "property": "C14",
   "status": "proved",
   "theorems": [
    "C14_s2_projection",
    "C14_projections_agree"
   ],
   "note": "orthogonal projection; projVec/projCols/projRows agree for any scalar type"
  },
  {
   "property": "C15",
   "status": "proved",
   "theorems": [
    "C15_identity"
   ],
   "note": "every tree, every previous matrix content"
  },
  {
   "property": "C16",
   "status": "proved",
   "theorems": [
    "C16_s2_transport",
    "C16_rotation_between"
   ],
   "note": "rotation, isometry, inverse, any number of columns; antipodal assertion characterised"
  },
  {
   "property": "C17",
   "status": "partial",
   "theorems": [
    "C17_s2_pseudoLog_partial",
    "C17_s2_pseudoLog_self_refuted"
   ],
   "note": "proved off the two singular points; pseudoLog(x,x) = 0 is false (0/0), proved"
  },
  {
   "property": "C18",
   "status": "proved",
   "theorems": [
    "C18_matrix_retraction"
   ],
   "note": "exact rotation off the Taylor branch, defect <= 1e-24 on it, distance to the exact exponential, isInM accepts, refusal from pi on"
  },
  {
   "property": "C19",
   "status": "proved",
   "theorems": [
    "C19_quat_retraction",
    "C19_no_uninitialised"
   ],
   "note": "same for the quaternion map; independence of uninitialised temporaries for any scalar type"
  },
  {
   "property": "C20",
   "status": "partial",
   "theorems": [
    "C20_retractions_commute",
    "C20_logs_agree_partial",
    "C20_half_turn_refuted"
   ],
   "note": "retractations commute with the conversion for every v; logarithms agree (equal off the small branches, within 2e-15 up to angle pi/2); refuted at the half turn about a coordinate axis"
  },
  {
   "property": "C21",
   "status": "partial",
   "theorems": [
    "C21_quat_log_partial",
    "C21_sign_refuted",
    "C21_small_branch_refuted"
   ],
   "note": "all unit quaternions: norm at most pi, exponential is q or -q (exact off the small branch, within 3e-24 on it), sign invariance for w<>0 and opposite values for w=0; refuted at w=0 and for exactness of the small branch"
  },
  {
   "property": "C22",
   "status": "partial",
   "theorems": [
    "C22_matrix_log_partial",
    "C22_finite_iff",
    "C22_half_turn_refuted",
    "C22_near_identity_refuted"
   ],
   "note": "complete case analysis for all rotations; finiteness characterised for all matrices; refuted at half turns and for an accepted matrix of trace above 3"
  },
  {
   "property": "C23",
   "status": "partial",
   "theorems": [
    "C23_zero_partial",
    "C23_s2_refuted"
   ],
   "note": "Proved on every tree for setZero, isInM of zero and retractation(x,0); pseudoLog0(zero)=0 and pseudoLog(x,x)=0 on trees without S2; refuted on S2 (throws, 0/0)."
  },
  {
   "property": "C24",
   "status": "partial",
   "theorems": [
    "C24_force_partial",
    "C24_zero_refuted"
   ],
   "note": "Proved on every tree for inputs whose S2 and quaternion parts are nonzero, with the exact acceptance condition; zero parts give NaN (refuted)."
  },
  {
   "property": "C25",
   "status": "partial",
   "theorems": [
    "C25_closest_partial",
    "C25_matrix_refuted"
   ],
   "note": "Proved on every tree without matrix-map parts; refuted for the matrix map (Gram-Schmidt is not the closest rotation)."
  },
  {
   "property": "C26",
   "status": "proved",
   "theorems": [
    "C26_limit",
    "C26_corner_refused"
   ],
   "note": "All trees; sharp (the corner of the closed box is refused)."
  },
  {
   "property": "C27",
   "status": "proved",
   "theorems": [
    "C27_structural",
    "C27_equivalence",
    "C27_same_operations"
   ],
   "note": "For all manifolds, isSameTopology holds iff the trees of factor classes and dimensions (type topo, defined separately) are equal; it is an equivalence; equal topology implies equal dims, layouts and equal results of all 19 operations, for any scalar type. It distinguishes (AxB)xC from Ax(BxC), see C27_example."
  },
  {
   "property": "C28",
   "status": "proved",
   "theorems": [
    "C28_same_type",
    "C28_topology_refines_type",
    "C28_steps_injective",
    "C28_one_block",
    "C28_unique_refuted"
   ],
   "note": "isSameType iff same class, for all manifolds; finalize and computeRound injective on all 32-bit words; names of equal length differing inside one 4-byte block never collide. Uniqueness for arbitrary names is refuted (two 8-letter names). computeK is never called by the source."
  },
  {
   "property": "C29",
   "status": "partial",
   "theorems": [
    "C29_locked_partial",
    "C29_refused",
    "C29_who_locks",
    "C29_assign_refuted",
    "C29_move_refuted"
   ],
   "note": "Heap model of manifold/point objects. C29_locked_partial: over all histories of the declared interface a locked object stays locked and denotes the same tree up to its name; C29_refused: multiply/setMag on a locked object throw and change nothing; C29_who_locks. Missing: implicit copy assignment / move of manifolds, for which the claim is false (C29_assign_refuted, C29_move_refuted)."
  },
  {
   "property": "C30",
   "status": "partial",
   "theorems": [
    "C30_count_partial",
    "C30_destroy_partial",
    "C30_destroy_point_partial",
    "C30_assign_refuted"
   ],
   "note": "Count = number of live attached points and destruction reported iff a point is attached to the object or to a factor dying with it, over all histories of the declared interface. False with the implicit operator= of manifolds (C30_assign_refuted)."
  },
  {
   "property": "C31",
   "status": "partial",
   "theorems": [
    "C31_distinct",
    "C31_factor",
    "C31_constant_partial",
    "C31_assign_refuted"
   ],
   "note": "Identifiers given by constructors pairwise distinct and factor ids: all histories, all calls. Ids constant: declared interface only; false with implicit operator= (C31_assign_refuted)."
  },
  {
   "property": "C32",
   "status": "proved",
   "theorems": [
    "C32_alive",
    "C32_snapshot",
    "C32_multiply",
    "C32_no_leak"
   ],
   "note": "All histories, implicit assignment and move included: components alive, an object not named by a modifying call keeps its tree, multiply stores the trees of the time of the call, no leak."
  },
  {
   "property": "C33",
   "status": "partial",
   "theorems": [
    "C33_unchanged_partial",
    "C33_succeeds_partial",
    "C33_self_refuted"
   ],
   "note": "Proved for p<>m (any state); P.multiply(P) changes the name and locks before throwing (C33_self_refuted)."
  },
  {
   "property": "C34",
   "status": "proved",
   "theorems": [
    "C34_memory",
    "C34_request",
    "C34_power_of_two",
    "C34_beyond_2_63"
   ],
   "note": "All histories of constructions, copies, requests and destructions on any number of buffers, allocations of constructors and copies failing or not, growth succeeding. 64-bit wrap-around modelled; above 2^63 the loop never ends."
  },
  {
   "property": "C35",
   "status": "partial",
   "theorems": [
    "C35_refuted",
    "C35_always_double_free",
    "C35_constructors_partial"
   ],
   "note": "False of the code: after any failing growth in any history the destructor releases the old block a second time (C35_refuted, C35_always_double_free). Failures in constructors and copies are harmless (C35_constructors_partial)."
  },
  {
   "property": "C36",
   "status": "proved",
   "theorems": [
    "C36_values",
    "C36_retractation",
    "C36_forceOnM",
    "C36_forceOnTxM",
    "C36_pseudoLog",
    "C36_increment"
   ],
   "note": "All four in-place operations (retractation, pseudoLog, forceOnM, forceOnTxM) on a memory of doubles, coefficient by coefficient as Eigen evaluates them, on every tree: equal to the value-level operation stored in the output range, same result or same failure as with separate buffers, nothing else written. Packet evaluation is not modelled."
  },
  {
   "property": "C37",
   "status": "proved",
   "theorems": [
    "C37_path",
    "C37_outside",
    "C37_write_through",
    "C37_copy",
    "C37_untouched"
   ],
   "note": "Every index path (C37_path), writing through the sub-point it reaches (C37_write_through), copies (C37_copy) and a frame over every call of every history (C37_untouched). Not modelled: the format_ field of points."
  },
  {
   "property": "C38",
   "status": "partial",
   "theorems": [
    "C38_values",
    "C38_returns",
    "C38_create",
    "C38_log_partial",
    "C38_minus_fails",
    "C38_s2_count",
    "C38_agree",
    "C38_minus_refuted"
   ],
   "note": "The three increments give the same value (C38_values, C38_agree), createPoint(val) is characterised exactly on every manifold with a non-empty representation (C38_create). y - x agrees with pseudoLog when dim = tangentDim; on every tree with an S2 leaf it always fails an assertion (C38_minus_fails, C38_minus_refuted)."
  },
  {
   "property": "C39",
   "status": "partial",
   "theorems": [
    "C39_assign_partial",
    "C39_accepted",
    "C39_assign_refuted"
   ],
   "note": "Proved when both manifolds have the same sequence of elementary factors; false in general: a point of S2 x R is accepted by a quaternion SO3 point (C39_assign_refuted). C39_accepted states what operator= accepts."
  },
  {
   "property": "C40",
   "status": "proved",
   "theorems": [
    "C40_random_points",
    "C40_bound_is_sharp",
    "C40_zero_draw"
   ],
   "note": "All trees, all draw sequences in [-1,1] with a nonzero draw in each S2 triple, all |coeff| < pi/sqrt 3; also the bound is sharp (assertion at and above it) and a zero S2 draw gives NaN."
  },
  {
   "property": "C41",
   "status": "proved",
   "theorems": [
    "C41_drift",
    "C41_never_stops"
   ],
   "note": "All trees, all increment sequences, no bound on k: defect at most (1+1e-24)^k-1; isInM accepts up to k = 1e12. C41_never_stops: without S2 factors no assertion fails."
  },
  {
   "property": "C42",
   "status": "proved",
   "theorems": [
    "C42_description",
    "C42_lines",
    "C42_structure",
    "C42_name",
    "C42_name_exact",
    "C42_name_pair",
    "C42_name_list",
    "C42_name_power",
    "C42_name_without_x"
   ],
   "note": "Descriptions of all trees for all prefixes: lines, prefix, brackets, leaves in order (C42_description, C42_lines), and the text determines the structure (C42_structure). Names for multiply, the initializer list, CartesianPower and the two-argument constructor; without the dimension hypothesis the separator can be missing (C42_name_exact, C42_name_without_x). Renaming a product afterwards is unrestricted (name() is mutable). RobotManifold of src/main.cpp is the subject of C68."
  },
  {
   "property": "C43",
   "status": "proved",
   "theorems": [
    "C43_power"
   ],
   "note": "For every M and every n in Z, the constructor's loop gives exactly the product of max(n,0) multiplications; topology, dims and sub-manifolds follow; operations coincide by C27_same_operations."
  },
  {
   "property": "C44",
   "status": "partial",
   "theorems": [
    "C44_exclusive_partial",
    "C44_alone",
    "C44_interference",
    "C44_ids_partial",
    "C44_result_refuted",
    "C44_double_release_refuted",
    "C44_released_write_refuted",
    "C44_ids_refuted",
    "C44_ids_one_thread_refuted"
   ],
   "note": "Proved for every schedule in which no two threads are at the same time inside calls on one SO3 object (resp. inside the id counter), for any number of threads, objects and calls; refuted without that restriction: a call returns another thread's result, a buffer block is released twice, a released block is written, identifiers repeat."
  },
  {
   "property": "C45",
   "status": "partial",
   "theorems": [
    "C45_exact",
    "C45_sound",
    "C45_overlap_partial",
    "C45_bytes",
    "C45_missed",
    "C45_overlap_refuted"
   ],
   "note": "Exact characterisation for all placements and sizes (C45_exact); true is always right; the claim holds when b does not start after a, and is false otherwise: the inner loop starts at j = i, so an overlap in which b starts inside a is missed (C45_missed, C45_overlap_refuted). Empty ranges are undefined behaviour; more than INT_MAX rows overflow the counters."
  },
  {
   "property": "C46",
   "status": "partial",
   "theorems": [
    "C46_create_partial",
    "C46_empty",
    "C46_empty_refuted"
   ],
   "note": "Proved for every manifold of positive representation dimension; false for the others: no point of an empty product or of RealSpace(0) can be made (C46_empty, C46_empty_refuted)."
  },
  {
   "property": "C47",
   "status": "partial",
   "theorems": [
    "C47_safe",
    "C47_safe_matrices",
    "C47_safe_access",
    "C47_toString_partial",
    "C47_toString_refuted"
   ],
   "note": "Every operation of the value layer, for all argument sizes; the only out-of-bounds access is toString of an SO3 given a too short vector (C47_toString_refuted). Assertions are those of a debug build."
  },
  {
   "property": "C48",
   "status": "partial",
   "theorems": [
    "C48_entries",
    "C48_default_lines",
    "C48_total",
    "C48_refused",
    "C48_brackets_partial",
    "C48_brackets_refuted",
    "C48_lines_refuted"
   ],
   "note": "Entries, order, slices and indentation proved for all trees without nested empty products, any format (C48_entries); with the default format the whole text line by line (C48_default_lines); brackets do not match on SO3 (C48_brackets_refuted) and an empty nested product leaves an empty line (C48_lines_refuted)."
  },
  {
   "property": "C49",
   "status": "proved",
   "theorems": [
    "C49_drift",
    "C49_accuracy",
    "C49_never_stops",
    "C49_sphere_refuted",
    "C49_round_trip_refuted"
   ],
   "note": "C49_drift, C49_accuracy, C49_never_stops prove the bounds for every tree and any number of increments, for any libm accurate to 2 half-ulps on [-4,4] (libm_exact shows the hypothesis is satisfiable). The bound on S2 slices is needed (C49_sphere_refuted: beyond, the norm overflows and the result is the null vector). Beside the claim, C49_round_trip_refuted: in doubles pseudoLog does not invert the retractation even on R. Not modelled: Eigen's vectorised summation order, fused multiply-add, excess precision, flush-to-zero."
  },
  {
   "property": "C50",
   "status": "partial",
   "theorems": [
    "C50_returned",
    "C50_setters_frame",
    "C50_setter_size_refuted",
    "C50_getters_iff"
   ],
   "note": "Returned values and frame proved for every tree and any scalars, when the setters get vectors of the tangent dimension; false otherwise: RealSpace's setters store a vector of any size and the getter then stops at Eigen's assertion (C50_setter_size_refuted), which C50_getters_iff shows to be the only obstacle."
  },
  {
   "property": "C51",
   "status": "proved",
   "theorems": [
    "C51_round_trip",
    "C51_nan_refuted"
   ],
   "note": "C51_nan_refuted: from the identity, v=(2^-26,0,0), pseudoLog of the retracted point is NaN for every library with acos(1)=0 and sin(0)=0; that is why the band between the two matrix ranges is left out of the statement. cos, sin, acos, atan2 are a parameter with stated accuracy; libm_exact meets it."
  },
  {
   "property": "C52",
   "status": "partial",
   "theorems": [
    "C52_view_read",
    "C52_tile",
    "C52_view_write",
    "C52_view_refused",
    "C52_wrong_size_refuted",
    "C52_elementary"
   ],
   "note": "Reading, tiling, writing with frame and refusal of indices proved for all nine template instances on every product, and for elementary manifolds. Wrong matrix sizes are not refused as long as the block fits (C52_wrong_size_refuted): only the vector views check the size."
  },
  {
   "property": "C53",
   "status": "proved",
   "theorems": [
    "C53_commutes",
    "C53_inverse",
    "C53_tests",
    "C53_iff"
   ],
   "note": "Over the reals. C53_commutes (finite results), C53_iff (both directions), C53_tests (isInM at the default precision, isInTxM at any; also the specification's own onM and tanM), C53_inverse (symmetries form a group acting on all vectors)."
  },
  {
   "property": "C54",
   "status": "proved",
   "theorems": [
    "C54_repair",
    "C54_accepts",
    "C54_forever",
    "C54_never_stops",
    "C54_zero_quaternion_refuted"
   ],
   "note": "IEEE binary64 (Flocq), for every tree. C54_repair: whenever forceOnM returns, distance to the manifold <= 27200*2^-53, isInM accepts, result = exact QR factor / normalised slice up to rounding; matrices may contain any double, NaN and infinities are refused. C54_accepts: never refuses a point within 3.3e-4. C54_forever: retractation+forceOnM any number of times keeps the bound (accurate cos/sin assumed); C54_never_stops: the loop goes on for ever without S2. S2 and quaternion slices must be finite with squared norm in [1/16, 2^900]; C54_zero_quaternion_refuted shows some bound is needed (NaN comes out)."
  },
  {
   "property": "C55",
   "status": "proved",
   "theorems": [
    "C55_one_isometry",
    "C55_product_unchanged"
   ],
   "note": "Real arithmetic (XR), exact points and tangent vectors. applyInvTransport (column version) on products is covered by C10, where it is refuted beyond one factor."
  },
  {
   "property": "C56",
   "status": "partial",
   "theorems": [
    "C56_refines",
    "C56_total",
    "C56_lands",
    "C56_increments",
    "C56_full_turns",
    "C56_silent_refuted"
   ],
   "note": "C56_refines (21 members), C56_total, C56_lands, C56_increments, C56_full_turns hold. The last sentence is false: C56_silent_refuted gives NaN for v = -x on S2, and a product that silently ignores the extra entry of a point one entry too long; the debug build refuses both."
  },
  {
   "property": "C57",
   "status": "partial",
   "theorems": [
    "C57_checked",
    "C57_silent_refuted",
    "C57_checked_exact"
   ],
   "note": "The stated claim is false (C57_silent_refuted): R^n accepts NaNs, retractation does not look at the rotation slices of the point, forceOnM on S2 and quaternions and pseudoLog return NaNs.  Proved for every tree, math library and precision: isInM accepts only finite S2/SO3 slices; isInTxM only finite S2 slices of point and vector; a retraction that returns had finite S2 slices in the point and finite S2/SO3 slices in the vector; a forceOnM that returns had finite matrix slices.  Same in exact arithmetic with undefined values."
  },
  {
   "property": "C58",
   "status": "proved",
   "theorems": [
    "C58_injective",
    "C58_reach",
    "C58_onto",
    "C58_tolerance_refuted"
   ],
   "note": "C58_injective, C58_reach, C58_onto for every tree.  C58_tolerance_refuted: among vectors accepted only within the 1e-8 tangency tolerance of S2, two different ones lead to the same point."
  },
  {
   "property": "C59",
   "status": "proved",
   "theorems": [
    "C59_path",
    "C59_path_exact",
    "C59_one_direction",
    "C59_steps",
    "C59_there_and_back",
    "C59_full_turn",
    "C59_sphere_refuted"
   ],
   "note": "Exact real arithmetic.  S2 is excluded because the claim fails there (C59_sphere_refuted)."
  },
  {
   "property": "C60",
   "status": "proved",
   "theorems": [
    "C60_lipschitz",
    "C60_lipschitz_exact",
    "C60_step",
    "C60_paths",
    "C60_factor_refuted"
   ],
   "note": "Exact real arithmetic. Points are on the manifold and tangent vectors valid, rotation parts shorter than pi. The matrix map stores nine numbers, so distances are Frobenius and the factor is sqrt 2; C60_factor_refuted shows 1 is not enough."
  },
  {
   "property": "C61",
   "status": "proved",
   "theorems": [
    "C61_metric",
    "C61_log",
    "C61_measured",
    "C61_stored",
    "C61_step",
    "C61_half_turn_refuted"
   ],
   "note": "Exact real arithmetic. C61_half_turn_refuted: outside the stated domain it fails; a half turn of the matrix map has pseudoLog zero although the points are at distance pi."
  },
  {
   "property": "C62",
   "status": "proved",
   "theorems": [
    "C62_path",
    "C62_portable",
    "C62_there_and_back"
   ],
   "note": "Every path length up to 7e9 steps; S2 slices are left out (C49 bounds one step there)."
  },
  {
   "property": "C63",
   "status": "proved",
   "theorems": [
    "C63_transport",
    "C63_back"
   ],
   "note": "Both transports on every tree in IEEE doubles, for matrices of any width: S2 parts within (825 u + 15 d) S of the exact rotation at every scale S, other parts copied bit for bit; there and back on S2 within five such errors. applyInvTransport of products is left out: it does not return (C10)."
  },
  {
   "property": "C64",
   "status": "proved",
   "theorems": [
    "C64_projection",
    "C64_accepted",
    "C64_never_stops",
    "C64_forever",
    "C64_large_refuted"
   ],
   "note": "Error of the computed projection at every scale, acceptance by the tangent test up to a size, a vector beyond it that is refused, and the loop forceOnM / forceOnTxM / retractation that never stops and never drifts, on every tree."
  },
  {
   "property": "C65",
   "status": "proved",
   "theorems": [
    "C65_jacobian",
    "C65_apply"
   ],
   "note": "Proved of the double instance of the model. The exact move and its derivative are defined over the reals in JacR.v, independently of the Jacobian formulas. diffRetractation itself stops on S2, as in the code, hence the hypothesis no_sphere in C65_jacobian only."
  },
  {
   "property": "C66",
   "status": "proved",
   "theorems": [
    "C66_log_jacobian",
    "C66_apply"
   ],
   "note": "C66_log_jacobian (block diagonal, every block next to the exact derivative), C66_apply (rows of applyDiffPseudoLog0), C66_example. Rotation matrices are left out: their coefficients divide by the sine of an angle read off the trace."
  },
  {
   "property": "C67",
   "status": "proved",
   "theorems": [
    "C67_find",
    "C67_sphere",
    "C67_lost_refuted",
    "C67_nan_refuted"
   ],
   "note": "C67_sphere states the sphere without naming the step. C67_lost_refuted and C67_nan_refuted show why short steps on S2 are left out: the result is 0 for every accurate library, and NaN for libraries whose acos is NaN above 1 (as C requires); C67_libm is one that meets both demands."
  },
  {
   "property": "C68",
   "status": "proved",
   "theorems": [
    "C68_description",
    "C68_library",
    "C68_same_product",
    "C68_assembled",
    "C68_multiply_classes",
    "C68_multiply_text",
    "C68_nesting",
    "C68_classes",
    "C68_classes_refuted"
   ],
   "note": "src/main.cpp modelled on top of the library's model: trees with the dynamic class of every product. Framing, one line per elementary manifold, agreement with the library's text without robots, classes kept by multiply, and what the text determines (nesting and names always; classes when no product is directly in a robot). C68_classes_refuted is the ambiguity that remains."
  },
  {
   "property": "C69",
   "status": "proved",
   "theorems": [
    "C69_round_trip",
    "C69_sphere"
   ],
   "note": "Extends C51 to trees with sphere factors: the exact sum x + v is the end of a great circle step (arc_to), and the computed point is within 8*2^-53 of its direction, so C67's analysis of the logarithm applies. Steps whose angle has sine below about 1e-6 are excluded: C67_lost_refuted and C67_nan_refuted show that the round trip fails there."
  },
  {
   "property": "C70",
   "status": "partial",
   "theorems": [
    "C70_live",
    "C70_one_place",
    "C70_destroyed",
    "C70_refused_destruction",
    "C70_late",
    "C70_overwritten",
    "C70_unprotected",
    "C70_every_member_refuted",
    "C70_recycled_refuted",
    "C70_release"
   ],
   "note": "The claim about every member is false: pseudoLog0, createRandomPoint(out), limitMap, the magnitudes, display, description, name, lock, isLocked, getInstanceId, isSameType and getNewCopy have no check and complete on a destroyed manifold (C70_every_member_refuted; C70_unprotected says these are exactly the ones), getIdentityOnTxM and the argument of multiply are stopped only after it was read or written (C70_late).  Proved for all other members.  A pointer to storage in which another manifold was built is never refused (C70_recycled_refuted)."
  },
  {
   "property": "C71",
   "status": "proved",
   "theorems": [
    "C71_target",
    "C71_sphere_refuted"
   ],
   "note": "C71_target for every tree; C71_sphere_refuted records that the sphere misses its target. Angles above 3.13 and, on S2, close to 0 or pi, are outside (there the assertions of retractation may refuse the computed step)."
  },
  {
   "property": "C72",
   "status": "proved",
   "theorems": [
    "C72_log",
    "C72_log_jacobian",
    "C72_apply",
    "C72_sinc"
   ],
   "note": "C72_log_jacobian (block diagonal, every block next to the exact derivative), C72_apply (rows of applyDiffPseudoLog0), C72_log (the specification's rotation vector inverts the exponential), C72_sinc (the series boost's sinc_pi uses near zero against the quotient of the model), C72_example. Angles below a milliradian (where the code's own series is wrong, see C08_series_refuted) and above a quarter turn are outside."
  },
  {
   "property": "C73",
   "status": "proved",
   "theorems": [
    "C73_random",
    "C73_zero_refuted"
   ],
   "note": "C73_random for every tree; C73_zero_refuted: three zero draws on S2 give NaN, rejected by isInM; C73_example, C73_example_large (coefficient 2, draws 1,1,1: the assertion of the exponential stops the program)."
  },
  {
   "property": "C74",
   "status": "proved",
   "theorems": [
    "C74_tangent",
    "C74_sizes",
    "C74_doubles",
    "C74_parallel_refuted"
   ],
   "note": "Exact arithmetic: unit, tangent, accepted, can be retracted along; 0/0 exactly for multiples of x. Doubles, any order of summation: explicit error bound in terms of the length of the orthogonal part, accepted by isInTxM above 1e11 times the error of the projection. A draw equal to the point (1,1,0)/sqrt 2 returns the point itself, which isInTxM rejects; a draw parallel to (1,0,0) returns NaN (C74_parallel_refuted)."
  },
  {
   "property": "C75",
   "status": "proved",
   "theorems": [
    "C75_exact",
    "C75_points",
    "C75_small_refuted",
    "C75_doubles",
    "C75_distance"
   ],
   "note": "C75_exact (step off the switches), C75_points (any two points), C75_doubles (R^n and rotation matrices, bit for bit), C75_distance (the norms are equal bit for bit), C75_small_refuted (small branch of the matrix logarithm: 1e-9 about (1, 1, 1)), C75_example, C75_example_doubles. Quaternions in doubles are only opposite up to the bounds of C51 (inverse() divides by the squared norm of the first point only, and the four terms of a component come in another order); sphere: the two results live in different tangent planes."
  },
  {
   "property": "C76",
   "status": "proved",
   "theorems": [
    "C76_retract",
    "C76_walk",
    "C76_repair",
    "C76_member",
    "C76_log",
    "C76_log0",
    "C76_half_turn_refuted"
   ],
   "note": "C76_retract, C76_walk (any number of moves, by induction), C76_repair, C76_member, C76_log, C76_log0: two points equal up to the sign of each quaternion (and of zeros) stay so through every operation, in doubles, bit for bit, on every tree. Logarithms keep the sign where the exact scalar product of the quaternions is at least 1e-12 (the scalar part non-zero for pseudoLog0). C76_half_turn_refuted: at a half turn the two quaternions of one rotation give opposite vectors of length pi. Hypotheses on the environment: blind (the order of summation does not depend on signs; proved of left-to-right sums) and, for logarithms, odd_atan2 (required of atan2 by the C standard)."
  },
  {
   "property": "C77",
   "status": "proved",
   "theorems": [
    "C77_still",
    "C77_walk",
    "C77_sphere_refuted"
   ],
   "note": "C77_still and C77_walk (any number of moves, by induction): exact, for every order of summation and every cosine and sine (they are not called). Spheres: only at points whose computed norm is exactly one; C77_sphere_refuted: (1 + 2^-30, 0, 0), which isInM accepts, is moved to (1, 0, 0) by the zero vector, because S2 renormalises."
  },
  {
   "property": "C78",
   "status": "proved",
   "theorems": [
    "C78_together",
    "C78_from_zero",
    "C78_logs"
   ],
   "note": "C78_together: any n, any starts; C78_from_zero: from setZero of both, difference at most 1717 n 2^-53 per entry; C78_logs: both logarithms return and differ by at most 8250 2^-53 + 522 d + 1046 e up to a quarter turn, a stated multiple over the squared sine beyond. The rotation of a quaternion is the matrix of p -> q p q*, defined in the file (turn_of); the accuracy asked of cos, sin, acos and atan2 is that of C49 and C51."
  },
  {
   "property": "C79",
   "status": "proved",
   "theorems": [
    "C79_accept",
    "C79_product",
    "C79_close",
    "C79_walk"
   ],
   "note": "C79_accept, C79_product, C79_close, C79_walk: in binary64 the membership test is sound (2.1 max(p, 1.001e-8)) and complete (within 3.3e-9) on every tree; R^n parts carry no constraint, so any double, NaN included, is accepted there."
  },
  {
   "property": "C80",
   "status": "proved",
   "theorems": [
    "C80_accept",
    "C80_close",
    "C80_retractation"
   ],
   "note": "C80_accept, C80_close, C80_retractation: soundness and completeness of the tangency test in binary64 on every tree, with the rounding margin explicit; R^n and SO(3) carry free coordinates, so nothing is tested there but the size."
  },
  {
   "property": "C81",
   "status": "proved",
   "theorems": [
    "C81_create",
    "C81_retract",
    "C81_plus"
   ],
   "note": "C81_create, C81_retract, C81_plus on the object layer with doubles; increment makes no test, see C79_walk and C49_drift; assignment between points of different manifolds is C39."
  }
 ]
}