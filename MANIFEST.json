{
 "claims": [
  {
   "property": "C01",
   "status": "proved",
   "theorems": [
    "C01_link_pose_is_chain_product"
   ],
   "note": "Every clean call history; any arithmetic."
  },
  {
   "property": "C02",
   "status": "proved",
   "theorems": [
    "C02_quaternion_fk_is_matrix_fk"
   ],
   "note": "Exact (real) arithmetic; unit axes assumed as the property says; links attached later are covered too."
  },
  {
   "property": "C03",
   "status": "proved",
   "theorems": [
    "C03_cache_transparency"
   ],
   "note": "Equality on the nose, for any arithmetic."
  },
  {
   "property": "C04",
   "status": "proved",
   "theorems": [
    "C04_queries_do_not_change_configuration"
   ],
   "note": "On every object, reachable or not."
  },
  {
   "property": "C05",
   "status": "proved",
   "theorems": [
    "C05_joint_motion_is_local"
   ],
   "note": ""
  },
  {
   "property": "C06",
   "status": "proved",
   "theorems": [
    "C06_base_moves_every_link_rigidly"
   ],
   "note": "Exact arithmetic; any history, also with stale caches; needs only non-zero axes and a non-zero base quaternion."
  },
  {
   "property": "C07",
   "status": "proved",
   "theorems": [
    "C07_orientations_are_unit_quaternions"
   ],
   "note": "Exact arithmetic."
  },
  {
   "property": "C08",
   "status": "partial",
   "theorems": [
    "C08_pose_memory_safety_partial",
    "C08_pose_memory_safety_refuted"
   ],
   "note": "False of the code for chains of added links (witness in the _refuted theorem: the scratch stack is sized when the model is built). The _partial theorem gives the exact safe part: depth at most the number of document links, in particular all links when added links attach to document links."
  },
  {
   "property": "C09",
   "status": "proved",
   "theorems": [
    "C09_columns_zero_exactly_off_the_path"
   ],
   "note": ""
  },
  {
   "property": "C10",
   "status": "proved",
   "theorems": [
    "C10_position_rows_are_derivatives"
   ],
   "note": "Joint columns, position rows: derivative (stdlib derivable_pt_lim) of the reported position with respect to that joint's angle, for every reached robot with unit axes and unit base, any link and any number of joints."
  },
  {
   "property": "C11",
   "status": "proved",
   "theorems": [
    "C11_quaternion_rows_are_derivatives"
   ],
   "note": "Quaternion rows (WithRotXYZW): derivative of each reported quaternion component."
  },
  {
   "property": "C12",
   "status": "proved",
   "theorems": [
    "C12_rpy_rows_are_derivatives"
   ],
   "note": "Roll, pitch, yaw rows: derivative of the reported angles, away from gimbal lock and the branch cut (hypothesis `regular`)."
  },
  {
   "property": "C13",
   "status": "proved",
   "theorems": [
    "C13_base_translation_columns_exact"
   ],
   "note": "Base translation columns: exact derivative."
  },
  {
   "property": "C14",
   "status": "proved",
   "theorems": [
    "C14_base_rotation_columns_approximate"
   ],
   "note": "Base rotation columns are forward differences in the code; the error against the true derivative of the position is bounded by 4e-7 times the distance to the base origin."
  },
  {
   "property": "C15",
   "status": "partial",
   "theorems": [
    "C15_base_rotation_columns_bounded_refuted",
    "C15_base_rotation_columns_bounded_partial"
   ],
   "note": "The full statement is false: proved false with concrete robots (sign flip at yaw = 2 pi; blow-up near gimbal lock). Partial: with the base angles in their usual ranges and off gimbal lock, the quaternion rows are within 1e-7 of the derivative, and the roll-pitch-yaw rows within 2e-6/cos(pitch of the link)^4 when the link is off gimbal lock and off the jump at pi."
  },
  {
   "property": "C16",
   "status": "proved",
   "theorems": [
    "C16_jacobian_layout"
   ],
   "note": ""
  },
  {
   "property": "C17",
   "status": "partial",
   "theorems": [
    "C17_jacobian_memory_safety_partial",
    "C17_jacobian_without_inertial_refuted"
   ],
   "note": "False of the code for documents without inertial data (the relevance table is never filled in). The _partial theorem covers every other document and history whose depths fit the scratch stack."
  },
  {
   "property": "C18",
   "status": "proved",
   "theorems": [
    "C18_com_is_mass_weighted_mean"
   ],
   "note": "Exact arithmetic; bodies are listed by the document, not by the model's own link order."
  },
  {
   "property": "C19",
   "status": "proved",
   "theorems": [
    "C19_com_jacobian_is_derivative"
   ],
   "note": "Every joint column of get_com_jacobian is the derivative of get_com, for any number of massive links."
  },
  {
   "property": "C20",
   "status": "partial",
   "theorems": [
    "C20_solve_com_fk_with_base_partial",
    "C20_solve_com_fk_refuted",
    "C20_python_solve_com_fk_floating_partial",
    "C20_first_waypoint_repeated_partial"
   ],
   "note": "With a base in the waypoints (partial theorem). False of the code for a fixed base: the cache is not cleared between waypoints (witness in the _refuted theorem). C20_first_waypoint_repeated_partial: for a fixed base, after clear_cache, every waypoint is answered as if it were the first, so one waypoint is answered rightly."
  },
  {
   "property": "C21",
   "status": "proved",
   "theorems": [
    "C21_total_mass_is_constant_sum",
    "C21_total_mass_is_sum_over_document",
    "C21_python_total_mass"
   ],
   "note": "Any arithmetic for the constancy and the normaliser; exact arithmetic for the order-independent sum."
  },
  {
   "property": "C22",
   "status": "proved",
   "theorems": [
    "C22_inertia_is_parallel_axis_sum"
   ],
   "note": "Exact arithmetic; the rotation is that of the link frame (see C23 for the inertial frame)."
  },
  {
   "property": "C23",
   "status": "partial",
   "theorems": [
    "C23_inertial_frame_orientation_refuted",
    "C23_inertial_frame_orientation_partial"
   ],
   "note": "False of the code: the rpy of the inertial origin is dropped (witness: one link turned by 1 rad). Partial: right whenever no inertia tensor changes under its own inertial-frame rotation."
  },
  {
   "property": "C24",
   "status": "partial",
   "theorems": [
    "C24_compute_inertia_refuted",
    "C24_compute_inertia_cleared_partial"
   ],
   "note": "False of the code: the pose cache is not cleared (witness on the slider robot). The _partial theorem covers calls on a cleared cache."
  },
  {
   "property": "C25",
   "status": "proved",
   "theorems": [
    "C25_link_ids_stable_bijection"
   ],
   "note": "After any call history; links added later are covered."
  },
  {
   "property": "C26",
   "status": "proved",
   "theorems": [
    "C26_joint_ids_stable_bijection"
   ],
   "note": "After any call history; only documents accepted by the load specification."
  },
  {
   "property": "C27",
   "status": "proved",
   "theorems": [
    "C27_unknown_names_rejected"
   ],
   "note": "On every reachable model; the model is returned unchanged in both cases."
  },
  {
   "property": "C28",
   "status": "proved",
   "theorems": [
    "C28_added_link_is_rigid_and_disturbs_nothing"
   ],
   "note": "Any clean history before and after the addition."
  },
  {
   "property": "C29",
   "status": "partial",
   "theorems": [
    "C29_rejected_add_new_link_partial",
    "C29_rejected_add_new_link_pickle_refuted"
   ],
   "note": "The model part holds in every program; the pickled form is polluted (refuted theorem): a rejected add_new_link makes the instance impossible to unpickle."
  },
  {
   "property": "C30",
   "status": "proved",
   "theorems": [
    "C30_set_get_joint_angles",
    "C30_set_q_get_q"
   ],
   "note": "C++ level and Python class, every base type."
  },
  {
   "property": "C31",
   "status": "proved",
   "theorems": [
    "C31_set_q_get_q_base"
   ],
   "note": "Over the reals; the hypothesis |sin pitch| < 0.99999 is the code's own gimbal threshold."
  },
  {
   "property": "C32",
   "status": "proved",
   "theorems": [
    "C32_ill_sized_vectors_rejected"
   ],
   "note": "Also for solve_com_fk. The length-1 check of set_q happens after the call was recorded in the history (see C29 for the effect)."
  },
  {
   "property": "C33",
   "status": "proved",
   "theorems": [
    "C33_solve_fk_each_waypoint",
    "C33_python_solve_fk"
   ],
   "note": "After any history, also with stale caches."
  },
  {
   "property": "C34",
   "status": "partial",
   "theorems": [
    "C34_solve_fk_cached_partial",
    "C34_solve_fk_cached_refuted",
    "C34_first_waypoint_repeated_partial"
   ],
   "note": "False of the code for a fixed base and use_cache=True after an earlier query (witness). With a base in the waypoints it holds (_partial). For a fixed base C34_first_waypoint_repeated_partial says exactly what a call after clear_cache answers: every waypoint as if it were the first, so one waypoint is answered rightly and later ones are ignored."
  },
  {
   "property": "C35",
   "status": "proved",
   "theorems": [
    "C35_solve_fk_ends_at_last_waypoint"
   ],
   "note": "Includes the case of repeated joint ids."
  },
  {
   "property": "C36",
   "status": "proved",
   "theorems": [
    "C36_planar_is_floating",
    "C36_planar_distances"
   ],
   "note": "For every world, no hypothesis on the state; also for compute_inter_link_sqdists. Failures coincide too."
  },
  {
   "property": "C37",
   "status": "partial",
   "theorems": [
    "C37_com_jacobian_columns_partial",
    "C37_com_jacobian_columns_planar_refuted"
   ],
   "note": "Proved for fixed and floating bases; false for a planar base, where three columns too many are returned."
  },
  {
   "property": "C38",
   "status": "proved",
   "theorems": [
    "C38_inter_link_squared_distances",
    "C38_squared_distance_symmetric",
    "C38_python_squared_distances"
   ],
   "note": "Values in any arithmetic; non-negativity and symmetry in exact arithmetic."
  },
  {
   "property": "C39",
   "status": "proved",
   "theorems": [
    "C39_distance_gradient_is_derivative"
   ],
   "note": "Every joint column of the gradient is the derivative of the squared distance reported by the same call when that coordinate of the waypoint is varied; distinct joint ids (with a repeated id the code's column is not the derivative)."
  },
  {
   "property": "C40",
   "status": "proved",
   "theorems": [
    "C40_pickle_roundtrip"
   ],
   "note": "Any program around it; also gives equal poses and Jacobians after the round trip."
  },
  {
   "property": "C41",
   "status": "partial",
   "theorems": [
    "C41_pickle_again_partial",
    "C41_pickle_twice_refuted"
   ],
   "note": "Holds for models that were never edited; refuted otherwise: the unpickled model starts with an empty history, so the second round trip loses everything."
  },
  {
   "property": "C42",
   "status": "partial",
   "theorems": [
    "C42_unrecorded_configuration_refuted",
    "C42_structure_survives_partial"
   ],
   "note": "Refuted: solve_fk (and the other solvers) move the joints without recording it. Partial: the structure survives pickling whatever unrecorded calls were made, and the configuration too after a set_q of every joint and the base."
  },
  {
   "property": "C43",
   "status": "partial",
   "theorems": [
    "C43_copy_partial",
    "C43_copy_refuted"
   ],
   "note": "The C++ objects and other instances are untouched; but the original's history is shared with the copy and doubled, after which it can be neither copied nor unpickled."
  },
  {
   "property": "C44",
   "status": "proved",
   "theorems": [
    "C44_position_limits_are_those_of_the_document",
    "C44_python_joint_limits"
   ],
   "note": "Values are those the reader stores for the joint element of that name."
  },
  {
   "property": "C45",
   "status": "partial",
   "theorems": [
    "C45_velocity_effort_limits_partial",
    "C45_velocity_effort_limits_refuted"
   ],
   "note": "False of the code: a continuous joint without a limit element is dereferenced (witness in the _refuted theorem). The _partial theorem covers joints that carry a limit element."
  },
  {
   "property": "C46",
   "status": "partial",
   "theorems": [
    "C46_empty_string_raises_partial",
    "C46_malformed_document_raises_refuted"
   ],
   "note": "Only the empty string raises; for every other document that is not an accepted description (no XML tree, no robot element, bad name/version/material/joint, duplicate names, missing ends, no or several roots) the constructor dereferences the null pointer that parseURDF returned: refuted by an exact characterisation."
  },
  {
   "property": "C47",
   "status": "proved",
   "theorems": [
    "C47_unsupported_joint_raises"
   ],
   "note": "Proved for every accepted description (graph_ok) with a joint element of type floating or planar."
  },
  {
   "property": "C48",
   "status": "partial",
   "theorems": [
    "C48_accepted_graphs_partial",
    "C48_only_trees_refuted"
   ],
   "note": "Proved: unique names, joints join existing links, exactly one root, supported types. Refuted: single parents and connectedness (multi-parent links and detached cycles are accepted)."
  },
  {
   "property": "C49",
   "status": "partial",
   "theorems": [
    "C49_terminates_without_cycles_partial",
    "C49_terminates_refuted",
    "C49_divergence_is_endless"
   ],
   "note": "Proved for every document whose description has no directed cycle; refuted by a description with a detached cycle. C49_divergence_is_endless shows what the model's Diverge outcome means."
  },
  {
   "property": "C50",
   "status": "proved",
   "theorems": [
    "C50_element_order_irrelevant"
   ],
   "note": "Any permutation of the children of the robot element gives an identical model object."
  },
  {
   "property": "C51",
   "status": "proved",
   "theorems": [
    "C51_python_files",
    "C51_load_urdf"
   ],
   "note": "File contents are arbitrary byte strings; an unreadable file is None."
  },
  {
   "property": "C52",
   "status": "proved",
   "theorems": [
    "C52_poses_form_a_group"
   ],
   "note": "Exact arithmetic."
  },
  {
   "property": "C53",
   "status": "proved",
   "theorems": [
    "C53_rpy_exact_away_from_gimbal_lock"
   ],
   "note": "Exact arithmetic; also that getRPY inverts setFromRPY on the principal ranges."
  },
  {
   "property": "C54",
   "status": "partial",
   "theorems": [
    "C54_rpy_near_gimbal_lock_partial",
    "C54_rpy_near_gimbal_lock_refuted"
   ],
   "note": "Equality is false of the code: above |sin pitch| = 0.99999 the pitch is replaced by a constant. Partial: for every orientation the angles give a rotation matrix within 0.02 of it in every entry."
  },
  {
   "property": "C55",
   "status": "proved",
   "theorems": [
    "C55_vector_attributes",
    "C55_words_unique",
    "C55_numbers"
   ],
   "note": "C55_vector_attributes for any numeric reader; C55_numbers gives the grammar and value of decimal numbers (value before rounding to double; hexadecimal, infinity and nan spellings and underflow are not modelled)."
  },
  {
   "property": "C56",
   "status": "proved",
   "theorems": [
    "C56_com_with_forces"
   ],
   "note": "Exact arithmetic; with a base in the waypoints, as the property says."
  },
  {
   "property": "C57",
   "status": "partial",
   "theorems": [
    "C57_com_name_refuted",
    "C57_com_name_partial"
   ],
   "note": "Refuted universally: every tree with a massive link x and a link x_com makes the constructor throw std::invalid_argument. C57_com_name_partial: those are the only trees with supported joints that are refused. Missing: the clashing names, for which the claim is false."
  },
  {
   "property": "C58",
   "status": "proved",
   "theorems": [
    "C58_cache_is_finite_map"
   ],
   "note": ""
  },
  {
   "property": "C59",
   "status": "proved",
   "theorems": [
    "C59_stack_is_bounded_lifo"
   ],
   "note": ""
  },
  {
   "property": "C60",
   "status": "partial",
   "theorems": [
    "C60_malformed_inertial_rejected_refuted",
    "C60_inertial_contents_never_matter_refuted"
   ],
   "note": "Refuted by a link whose inertial element has no mass; C60_inertial_contents_never_matter_refuted shows that the contents of inertial elements never influence whether a document loads."
  },
  {
   "property": "C61",
   "status": "partial",
   "theorems": [
    "C61_calls_one_at_a_time_partial",
    "C61_remembered_poses_partial",
    "C61_concurrent_queries_refuted"
   ],
   "note": "Refuted by two schedules (a reset of the shared stack, and a cache entry marked before it is stored). Proved: calls that do not overlap, and any interleaving of queries whose answers are already cached. The interleaving model is sequentially consistent; under the C++ memory model these races are undefined behaviour."
  },
  {
   "property": "C62",
   "status": "partial",
   "theorems": [
    "C62_mimic_joints_follow_refuted",
    "C62_mimic_joints_follow_partial"
   ],
   "note": "Refuted by a telescope whose second joint mimics the first: mimic elements are parsed but ignored. C62_mimic_joints_follow_partial: poses do not depend on mimic elements at all, and are right when the caller already sets the joints in step. Missing: that the library does so itself, which is false."
  },
  {
   "property": "C63",
   "status": "proved",
   "theorems": [
    "C63_instances_independent"
   ],
   "note": "Every program."
  },
  {
   "property": "C64",
   "status": "proved",
   "theorems": [
    "C64_instances_wrap_reached_objects"
   ],
   "note": "Every program, exceptions caught."
  },
  {
   "property": "C65",
   "status": "partial",
   "theorems": [
    "C65_long_vectors_partial",
    "C65_short_vectors_refuted"
   ],
   "note": "Refuted for every instance: vectors shorter than the joint list are read past their end (undefined behaviour). C65_long_vectors_partial: vectors that are long enough are read within bounds and the calls return. Missing: rejection of shorter ones, which is false."
  },
  {
   "property": "C66",
   "status": "proved",
   "theorems": [
    "C66_joint_elements",
    "C66_constructed_models",
    "C66_readable_documents_load",
    "C66_meaning_unique"
   ],
   "note": "Against the declarative reading of Spec_Urdf.v (elements, attributes, defaults), for every XML tree."
  },
  {
   "property": "C67",
   "status": "proved",
   "theorems": [
    "C67_link_elements",
    "C67_link_data"
   ],
   "note": "The inertial data kept from malformed elements is characterised exactly."
  },
  {
   "property": "C68",
   "status": "proved",
   "theorems": [
    "C68_ignored_nodes"
   ],
   "note": "Every insertion or removal of comments, text and elements the reader does not look at, at any place."
  },
  {
   "property": "C69",
   "status": "proved",
   "theorems": [
    "C69_documents_are_read_as_written"
   ],
   "note": "Proved for the grammar in Spec_Xml.v over the character-level model of the shipped TinyXML (TinyXml.v). CDATA sections, internal DTD subsets, references to non-ASCII characters by number and non-ASCII names are not in the grammar."
  },
  {
   "property": "C70",
   "status": "proved",
   "theorems": [
    "C70_written_trees_read_back"
   ],
   "note": "Corollary of C69 for the writer in Spec_Xml.v."
  },
  {
   "property": "C71",
   "status": "partial",
   "theorems": [
    "C71_utf8_texts_are_parsed",
    "C71_uncut_texts_are_parsed",
    "C71_any_text_refuted"
   ],
   "note": "Proved for every UTF-8 text (and every NUL-free text in which no lead byte announces bytes past the end); refuted for arbitrary bytes: one text loops forever, one is read past its end."
  },
  {
   "property": "C72",
   "status": "proved",
   "theorems": [
    "C72_truncated_documents_never_load"
   ],
   "note": "Proved for every cut position, also inside a character; cutting can make the parser hang or overrun (C71) but never yields a model."
  },
  {
   "property": "C73",
   "status": "proved",
   "theorems": [
    "C73_text_to_model",
    "C73_model_to_text",
    "C73_layout_is_irrelevant"
   ],
   "note": "Composition of the TinyXML model with the URDF reader and the constructor."
  },
  {
   "property": "C74",
   "status": "partial",
   "theorems": [
    "C74_only_documents_load_partial",
    "C74_only_documents_load_refuted"
   ],
   "note": "Refuted: trailing text after the root element is ignored, unquoted attribute values, several roots and an unterminated trailing comment are accepted. C74_only_documents_load_partial: every text that loads has the loose form of Spec_Loose.v (nested elements closed by their own names, distinct attributes with the values written, for all texts) and the robot loaded is the one it describes. Missing: quotes, space between attributes, well-formed names, references and encodings, a single root, nothing but comments after it."
  },
  {
   "property": "C75",
   "status": "proved",
   "theorems": [
    "C75_attributes_are_unambiguous"
   ],
   "note": "Proved for every text."
  },
  {
   "property": "C76",
   "status": "proved",
   "theorems": [
    "C76_rounded_poses",
    "C76_rounded_waypoints"
   ],
   "note": "For every rounding scheme with error at most u per operation (Ops/accurate in FloatArith.v); C76_example applies it to IEEE doubles (Flocq) and a robot with revolute and prismatic joints. The axes of movable joints must be unit vectors, as URDF requires. Overflow and NaN are not modelled. Reported roll-pitch-yaw rows are not covered (they are not continuous in the pose)."
  },
  {
   "property": "C77",
   "status": "proved",
   "theorems": [
    "C77_rounded_reading"
   ],
   "note": "Holds for every document; the nearness part for documents whose angles and lengths are bounded and whose movable axes are unit vectors."
  },
  {
   "property": "C78",
   "status": "partial",
   "theorems": [
    "C78_arguments_by_reference_partial",
    "C78_pickles_follow_arrays_partial",
    "C78_arguments_by_reference_refuted"
   ],
   "note": "Proved for programs that do not write to an array or list after passing it; refuted: the recorded calls hold the caller's array, so a later write to it changes what is unpickled. C78_pickles_follow_arrays_partial says exactly what is pickled for programs that do write: every recorded call with the contents its arrays and lists have at that time. Missing there: copy.copy, loads and calls with temporaries."
  },
  {
   "property": "C79",
   "status": "proved",
   "theorems": [
    "C79_com_base_columns"
   ],
   "note": "Full statement over the reals: translation columns exact, rotation columns with an explicit bound (the code uses a finite difference of the rotation there)."
  },
  {
   "property": "C80",
   "status": "proved",
   "theorems": [
    "C80_distance_base_columns"
   ],
   "note": "Full statement over the reals; the bound on the rotation columns is explicit."
  },
  {
   "property": "C81",
   "status": "proved",
   "theorems": [
    "C81_looks_never_matter",
    "C81_same_model"
   ],
   "note": "The model of Urdf.v drops appearance; this theorem shows that nothing is lost by it. Narrowing of colours to float is not modelled."
  },
  {
   "property": "C82",
   "status": "proved",
   "theorems": [
    "C82_looks_as_written",
    "C82_visual_elements",
    "C82_collision_elements"
   ],
   "note": "Observable through urdf::parseURDF; tinyfk itself only uses the kinematic part. Colours are kept as doubles (the code narrows them to float)."
  },
  {
   "property": "C83",
   "status": "proved",
   "theorems": [
    "C83_rounded_jacobians",
    "C83_rounded_waypoint_jacobians"
   ],
   "note": "As for C76: any rounding with error at most u per operation, doubles by Flocq in the example; unit axes; no overflow or NaN. Joint columns only. Roll-pitch-yaw rows divide by the cosine of the pitch and have no uniform bound; the base rotation columns divide a difference by 1e-7."
  },
  {
   "property": "C84",
   "status": "proved",
   "theorems": [
    "C84_rounded_centre_of_mass"
   ],
   "note": "As for C83; masses nonnegative, at least one massive link, mass at positive total M, and 1000*u*N*(1+1/M) <= 1 (for doubles: any realistic robot). Joint columns only."
  },
  {
   "property": "C85",
   "status": "proved",
   "theorems": [
    "C85_separate_models"
   ],
   "note": "Links are heap objects with shared and weak pointers (Heap.v); joints and inertial data are held by value since only the constructor changes them. Undefined behaviour or a call that does not return ends a program on both sides alike."
  },
  {
   "property": "C86",
   "status": "partial",
   "theorems": [
    "C86_copies_partial",
    "C86_copies_refuted"
   ],
   "note": "Proved for programs in which no model adds a link after a related copy added one it lacks (one_adds); otherwise false: the refutation ends in a write outside the table."
  },
  {
   "property": "C87",
   "status": "proved",
   "theorems": [
    "C87_no_dangling"
   ],
   "note": "All programs, copies that both add links included. Parents are claimed for links of the model's own list."
  },
  {
   "property": "C88",
   "status": "partial",
   "theorems": [
    "C88_no_leak_partial",
    "C88_no_leak_refuted"
   ],
   "note": "Proved when no document has a cycle of joints; refuted for a document with a separate cycle, which the constructor accepts: its links own each other."
  },
  {
   "property": "C89",
   "status": "proved",
   "theorems": [
    "C89_double_poses",
    "C89_double_waypoints"
   ],
   "note": "Hypotheses on the platform: literals correctly rounded, sin and cos accurate up to u and indifferent to the sign of zero, numerals below 2^1000 read accurately up to u. Roll, pitch and yaw (asin, atan2) are not covered."
  },
  {
   "property": "C90",
   "status": "partial",
   "theorems": [
    "C90_import_fetches_robots_refuted",
    "C90_files_are_beginnings_partial",
    "C90_first_import_partial",
    "C90_later_imports_partial"
   ],
   "note": "False of the code: the directory is the only mark of a finished download, so an import after an interrupted one, or during one, returns without complete files, for ever; and of two overlapping first imports one can raise. Proved: files are always beginnings of the texts, complete once a downloading import has returned; a first import on its own succeeds; once nobody downloads, nothing on disk changes and later imports return. The server always sends the same texts with their length; nobody else touches the directory."
  },
  {
   "property": "C91",
   "status": "proved",
   "theorems": [
    "C91_whole_robot_or_none"
   ],
   "note": "For descriptions that end with the root element and white space, as the bundled ones do."
  },
  {
   "property": "C92",
   "status": "partial",
   "theorems": [
    "C92_export_partial",
    "C92_everything_is_read",
    "C92_export_refuted"
   ],
   "note": "False of the code: the message after the last else of joint.cpp:604 is commented out, so exportPose became the body of that else and no joint origin is ever written (for the supported types); C92_export_refuted has a robot whose second link is one metre above the first before, and inside it after. Proved: everything else survives, for every accepted document and every way of printing that yields numbers; all joint origins become the identity. A mimic element without joint name and an empty calibration are dropped."
  },
  {
   "property": "C93",
   "status": "partial",
   "theorems": [
    "C93_export_looks_partial",
    "C93_export_looks_refuted"
   ],
   "note": "False of the code: names of visuals and collisions are not written (C93_export_looks_refuted), nor is the name of an undefined material. Proved: everything else survives."
  },
  {
   "property": "C94",
   "status": "proved",
   "theorems": [
    "C94_printed_numbers",
    "C94_printed_colours",
    "C94_written_files_are_read"
   ],
   "note": "Numbers are reals; a stream with default precision and the C locale."
  },
  {
   "property": "C95",
   "status": "partial",
   "theorems": [
    "C95_printed_documents_partial",
    "C95_printed_documents_refuted"
   ],
   "note": "Proved for values that do not contain the three characters &#x (C95_printed_documents_partial), for files and streams. EncodeString copies whatever follows &#x up to a semicolon, so in general the claim is refuted: a value &#x41; (read from &amp;#x41;) comes back as A, and a value with &#x and both kinds of quotes makes the printed document unreadable."
  },
  {
   "property": "C96",
   "status": "partial",
   "theorems": [
    "C96_saved_robots_partial",
    "C96_saved_files_are_read_partial",
    "C96_saved_robots_refuted"
   ],
   "note": "Proved for documents whose attribute values do not contain &#x: reading the saved text is reading the exported document (C96_saved_robots_partial), and with six-digit numbers it always succeeds and gives the robot of C92 (C96_saved_files_are_read_partial). Refuted in general: a robot with links named A and &#x41; is read, exported and saved, and the saved file is rejected."
  },
  {
   "property": "C97",
   "status": "partial",
   "theorems": [
    "C97_unknown_ids_refuted",
    "C97_known_ids_partial"
   ],
   "note": "Refuted as stated, for every instance and every unknown id: set_q, get_q, get_joint_limits, solve_fk and add_new_link reach an access past the end of a vector (undefined behaviour). What remains true: for known ids get_q and set_q return."
  },
  {
   "property": "C98",
   "status": "proved",
   "theorems": [
    "C98_rounded_distances"
   ],
   "note": "For use_cache = false and the gradient columns of joints, not those of the base. Overflow is not modelled."
  },
  {
   "property": "C99",
   "status": "partial",
   "theorems": [
    "C99_saved_models_partial",
    "C99_saved_mass_partial",
    "C99_saved_models_refuted"
   ],
   "note": "Proved for documents whose attribute values do not contain &#x: the saved file loads, as a robot with the same links and joints up to the printed numbers and without the joint origins, with the same ids and the printed limits (C99_saved_models_partial); with the standard stream the total mass is kept up to five millionths if no mass is negative (C99_saved_mass_partial). Refuted for poses: joint origins are not written, so the upper link of a tower is inside the lower one after saving (C99_saved_models_refuted)."
  },
  {
   "property": "C100",
   "status": "proved",
   "theorems": [
    "C100_double_jacobians",
    "C100_double_waypoint_jacobians"
   ],
   "note": "Joint columns only; roll-pitch-yaw rows and base columns are not covered. Hypotheses on the platform as in C89."
  },
  {
   "property": "C101",
   "status": "proved",
   "theorems": [
    "C101_double_distances"
   ],
   "note": "For use_cache = false and the gradient columns of joints, as in C98. Hypotheses on the platform as in C89."
  },
  {
   "property": "C102",
   "status": "proved",
   "theorems": [
    "C102_double_centre_of_mass"
   ],
   "note": "Joint columns only. Hypotheses on the platform as in C89, on the masses as in C84."
  },
  {
   "property": "C103",
   "status": "proved",
   "theorems": [
    "C103_base_moves_mass_rigidly"
   ],
   "note": "Exact reals, any history and any cache contents. Example: the slider with a moved and turned base."
  },
  {
   "property": "C104",
   "status": "proved",
   "theorems": [
    "C104_centre_of_mass_is_among_bodies"
   ],
   "note": "Exact reals; stated for every half-space, so for the convex hull. Example: the slider."
  },
  {
   "property": "C105",
   "status": "proved",
   "theorems": [
    "C105_whole_turns_change_nothing"
   ],
   "note": "Exact reals, any history. Quaternion rows and base columns of angles are excepted and say so in the statement. Example: the wheel at 0 and at one turn, with opposite quaternions."
  },
  {
   "property": "C106",
   "status": "proved",
   "theorems": [
    "C106_relative_pose_needs_only_joints_between"
   ],
   "note": "Exact reals, any history. Example: the slider with a tip on its car; slider and base are moved."
  },
  {
   "property": "C107",
   "status": "proved",
   "theorems": [
    "C107_links_stay_within_reach"
   ],
   "note": "Exact reals, any history. Example: the wheel with a tip one unit from the axis."
  },
  {
   "property": "C108",
   "status": "proved",
   "theorems": [
    "C108_one_joint_moves_along_its_axis"
   ],
   "note": "Exact reals, any history. Example: the wheel with a tip, turned from 0 to 2."
  },
  {
   "property": "C109",
   "status": "proved",
   "theorems": [
    "C109_small_joint_steps_move_links_little"
   ],
   "note": "Exact reals, any history. Bounds on joints matter only for sliding joints. Example: same as C108 (C108_C109_example)."
  },
  {
   "property": "C110",
   "status": "proved",
   "theorems": [
    "C110_jacobian_times_speeds_is_link_velocity"
   ],
   "note": "Derivative along any differentiable path of any distinct joints; roll-pitch-yaw rows only away from the gimbal band (where C54's refutation applies) and away from the wrap-around at pi, where the reported angle jumps."
  },
  {
   "property": "C111",
   "status": "proved",
   "theorems": [
    "C111_com_jacobian_times_speeds_is_com_velocity"
   ],
   "note": "When the total mass is 0 the code divides by 0 and the statement says nothing about doubles."
  },
  {
   "property": "C112",
   "status": "proved",
   "theorems": [
    "C112_distance_gradient_times_speeds_is_rate"
   ],
   "note": "Needs use_cache=false or a base in the waypoints, as C39 does: with a stale cache (C34's refutation) the distances themselves may be those of another configuration."
  },
  {
   "property": "C113",
   "status": "proved",
   "theorems": [
    "C113_jacobian_columns_are_rigid_motions"
   ],
   "note": "Joint columns only; base rotation columns are finite differences (C14, C15). The links' carriers are given by the document."
  },
  {
   "property": "C114",
   "status": "proved",
   "theorems": [
    "C114_jacobian_columns_are_bounded"
   ],
   "note": "Position rows; the bound holds for every posture within the chosen joint bounds."
  },
  {
   "property": "C115",
   "status": "proved",
   "theorems": [
    "C115_jacobian_columns_turn_with_base"
   ],
   "note": "Roll-pitch-yaw rows are not covered: Euler-angle rates do not transform linearly under the base rotation."
  },
  {
   "property": "C116",
   "status": "proved",
   "theorems": [
    "C116_distances_do_not_depend_on_base"
   ],
   "note": "Exact reals. For a fixed base the theorem speaks of calls without caching (with it the answers can be stale, C34)."
  },
  {
   "property": "C117",
   "status": "proved",
   "theorems": [
    "C117_gradient_needs_only_joints_between"
   ],
   "note": "Exact reals, whole statement."
  },
  {
   "property": "C118",
   "status": "proved",
   "theorems": [
    "C118_pairs_are_answered_alike"
   ],
   "note": "Exact reals, whole statement; without a base in the waypoints both calls must not use the cache (C34)."
  },
  {
   "property": "C119",
   "status": "proved",
   "theorems": [
    "C119_batches_can_be_split"
   ],
   "note": ""
  },
  {
   "property": "C120",
   "status": "proved",
   "theorems": [
    "C120_rotation_type_only_adds_rows"
   ],
   "note": ""
  },
  {
   "property": "C121",
   "status": "partial",
   "theorems": [
    "C121_cached_distances_partial",
    "C121_cached_distances_refuted"
   ],
   "note": "False of the code for a fixed base: right after clear_cache a batch of two different waypoints gets the first distance twice (witness). With the base in the waypoints caching changes nothing, and for a fixed base a cached call after clear_cache answers exactly what the uncached call answers for the first waypoint repeated, so a single waypoint is right (_partial)."
  },
  {
   "property": "C122",
   "status": "proved",
   "theorems": [
    "C122_links_are_answered_alike",
    "C122_com_is_answered_alike"
   ],
   "note": "Any arithmetic, whole statement; without a base in the waypoints neither call uses the cache (C34, C121 show that this is necessary)."
  }
 ]
}