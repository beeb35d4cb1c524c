# Formal model of HiroIshida/tinyfk in Coq: design

## 1. What is modelled, and how

The code is modelled as total, computable Gallina functions, one per C++/Python function, each with a
comment citing the file and lines in /repo.

* **Outcomes.** `res A := Ok a | Throw e | UB u | Diverge`. Out-of-range vector accesses, null dereferences and
  pushes beyond the stack's capacity are `UB`, a C++/Python exception is `Throw`, a loop that never ends is
  `Diverge`. Stateful functions have type `state -> state * res A`, so "the state is unchanged after an
  exception" is a theorem, not a modelling convention.
* **Numbers.** All numeric code is written against a law-free record `Arith` (carrier, literals, `+ - * /`,
  `sqrt sin cos asin atan2`, comparisons, string-to-double). Theorems about caching, histories, ids,
  relevance, shapes and memory safety hold for *every* `Arith`, hence also for IEEE doubles. Analytic theorems
  (derivatives, rotation matrices, centre of mass) are about the instance `RA` over Coq's real numbers.
  Rounding is covered separately: `FloatArith.v` gives instances over rounded operations, and C76, C77, C83, C84 bound the
  distance between the poses and Jacobians computed with them and the exact ones. There exponents are
  unbounded above. `Ieee.v` is the instance over IEEE doubles themselves (Flocq's binary64, with infinities, NaN and signed zeros), and C89 shows
  that with moderate numbers no pose overflows, C100 the same for joint columns of Jacobians, C101 for squared distances, C102 for the centre of mass. Contraction into fused multiply-add is not modelled; libm's sin, cos are only assumed to have the error bound `u`.
* **Pointers.** `links_[i]` pointers are indices into the links vector; joints are immutable after the
  constructor and stored by value. Integer widths (int, size_t) are modelled by `nat` (no wrap-around: needs more
  than 2^31 links). `Heap.v` drops the first simplification: links are heap objects shared between models and their copies,
  with owning and weak pointers, and freed with their last owner (C85-C88); there the methods are written again over addresses.
* **XML.** `Urdf.v` reads the DOM (element name, attributes, children; comments, text and the like are `XOther`).
  The theorems C01-C68 hold for every function from texts to DOMs. `TinyXml.v` models the shipped TinyXML character
  by character (`tinyxml_parse`), including its endless loops and reads past the end; `ctor_text` is the constructor
  with this parser (C69-C75). `Appear.v` adds materials, visuals and collisions to the reader (C81, C82). Row and column numbers are dropped, the walk computing them is kept.
* **Eigen.** Matrices are lists of rows; every indexed write in the code is an indexed, bounds-checked write in
  the model. The summation order inside Eigen products is fixed left to right.
* **Python.** `python/tinyfk/__init__.py` is modelled with its history lists in a heap, so that aliasing by
  `copy.copy` is visible. Numpy arrays are rectangular lists of rows. `Import.v` models the code run by `import tinyfk`: any number of
  processes, one system call or downloaded block at a time, each of which may fail or be the last (C90, C91).

Not modelled: TinyXML's printing of comments, texts and declarations, pybind11 conversions (assumed faithful, ids are
non-negative), the benchmark and test programs, stream I/O other than `load_urdf`'s line loop, memory
allocation failure.

## 2. Specifications

`Spec*.v` contain small independent specifications, at the level of names and the URDF description, not of the
model's internals: the forward-kinematics relation over a list of frames (child, parent, joint), rotation
matrices / Rodrigues formula, partial derivatives (`is_derive` of Coquelicot), finite maps and LIFO lists.

## 3. Plan per property

| id | model part | proof method |
|----|-----------|--------------|
| C01 | Kin (get_link_pose), ctor | induction on the path to the root; refinement of the name-level FK relation |
| C02 | Kin over R, Pose | quaternion-to-matrix homomorphism, induction on the FK relation |
| C03 | Kin, all operations | invariant "every cached pose is the pose of the link", induction on histories |
| C04 | Kin queries | frame lemma for every query |
| C05 | Kin | induction on the FK relation |
| C06 | Kin over R | induction, associativity |
| C07 | Pose/Kin over R | norm multiplicativity, induction |
| C08 | Kin | depth bound by pigeonhole; refuted for chained add_new_link (witness), proved for the safe histories |
| C09 | Kin (update_rptable) | loop invariant of the worklist traversal, reachability |
| C10, C11, C12 | Kin over R | derivative along the chain by induction; chain rule |
| C13, C14 | Kin over R | direct computation; second-order bound for the finite difference |
| C15 | Kin over R | refuted by witness; partial: error bounds of the difference quotients off gimbal lock (Taylor) |
| C16 | Kin | lengths and column-wise description |
| C17 | Kin, ctor | refuted by witness (no inertial element); proved when some inertial element exists or a link was added |
| C18, C19, C20, C21 | Kin, Wrapper | loop invariants; C20 refuted for fixed base, proved with base, and for one waypoint on a cleared cache (`Thm_Recall.v`) |
| C22, C23, C24 | Kin, Wrapper over R | algebra; C23, C24 refuted by witnesses; partial: tensors unchanged by their own frame |
| C25, C26, C27 | Kin, ctor | invariants over histories |
| C28, C29 | Kin, Py | frame lemmas, invariants; C29 refuted at the Python level |
| C30, C31, C32 | Kin, Wrapper, Py | list lemmas; trigonometry |
| C33, C34, C35, C36 | Wrapper, Py | loop invariant over waypoints; C34 refuted for a fixed base, where the exact answer after clear_cache is proved by replaying remembered queries (`Pf_Recall.v`, `Thm_Recall.v`) |
| C37 | Py | refuted for PLANER, proved for the other base types |
| C38, C39 | Wrapper | loop invariant; product rule |
| C40, C41, C42, C43 | Py | replay lemma; C41, C42, C43 refuted, with what remains true |
| C44, C45 | Kin, Urdf | parser lemma; C45 refuted |
| C46, C47, C48, C49, C50 | Urdf, ctor | case analysis / witnesses / permutation invariance |
| C51 | load_urdf | induction on the content |
| C52, C53, C54 | Pose over R | algebra/trigonometry; C54 refuted, partial: entrywise bound |
| C55 | Urdf utils | induction on strings |
| C56 | Wrapper over R | loop invariant, field |
| C57 | ctor | refuted for every tree with clashing names; partial: exactly those trees are refused |
| C58, C59 | DataStructure | refinement by induction on operation sequences |
| C60 | Urdf, ctor | refuted: two documents that differ inside inertial elements load alike |
| C61 | small-step interleaving of get_link_pose | refuted by witness schedule |
| C62 | Urdf, Kin | refuted; partial: poses do not depend on mimic elements, and are right for values in step |
| C63, C64 | Py | invariant over programs on a heap of instances |
| C65 | Wrapper, Py | refuted: undefined behaviour for every vector that is too short; partial: long enough vectors |
| C66, C67, C68 | Urdf | the reader computes the declarative meaning of Spec_Urdf.v; both directions |
| C69, C70 | TinyXml | induction on the grammar of Spec_Xml.v; every production is consumed exactly |
| C71 | TinyXml | every call shortens the text; refuted for texts that end inside a character |
| C72 | TinyXml | what was read from a prefix is read from every longer text; elements end at one place only |
| C73, C74, C75 | TinyXml, Urdf, ctor | composition; trailing text; induction on the parser's calls towards the loose grammar of Spec_Loose.v; invariant of the attribute loop |
| C76, C77 | FloatArith, Urdf, ctor, Kin | the same code in two arithmetics; forward error analysis of each operation, induction on the chain; doubles by Flocq |
| C78 | PyRef over Py | simulation by the program with copied arguments; refuted by a write after set_q; exact contents of the histories by an invariant relating held arrays to the calls of the program |
| C79 | Kin | the bodies are attached to the base by constant poses; sums of the columns of C13 and C14; error summed with the masses |
| C80 | Wrapper | a rotation preserves distances; uniqueness of the derivative of a constant; error of C14 for both links |
| C81 | Appear | the kinematic part of the whole reader is the reader of Urdf.v, loop by loop; then C68 |
| C82 | Appear | element by element as for C66; invariant of the link loop: the known materials are the robot's and the first inline ones |
| C83 | FloatArith, Kin | C76 for the poses, then forward error analysis of the cross product, the inverse and q_derivative; which joints carry a link depends on names only |
| C84 | FloatArith, Kin | C83 for the poses and Jacobians of the mass points; errors of the running sums by induction, of the quotient by algebra |
| C85 | Heap | simulation: a model's links in the heap correspond to its own list of links; other families of models live at other addresses, so events on them keep the correspondence |
| C86 | Heap | the same simulation, exact about child_links only for models that may still add; refuted for two related models that both add |
| C87 | Heap | invariant: links_ are alive, children of live links are alive, parents and joint children are in links_; kept by every event |
| C88 | Heap | ranks on child_links (cycle-free documents), and a sweep that has reached its fixpoint leaves only links below held ones; refuted by a cycle |
| C89 | Ieee, Urdf, ctor, Kin | doubles (Flocq binary64) simulate rounded real numbers as long as every intermediate result is below 2^1024; the bounds of C76 show that it is |
| C90 | Import | interleaving model of the module's top level with failures and kills; invariant: mkdir succeeds once, so there is at most one downloader and each file is the beginning of the server's text; refuted by three kinds of histories |
| C91 | Import, TinyXml, ctor | the invariant of C90 and C72 (cut descriptions never load) |
| C92 | Export, Urdf | document written from what was read; maps are sorted, so reading inserts in the same order; connecting links depends on names only; refuted: joint origins are never written (the call is the body of an else branch) |
| C93 | Export, Appear | as C92, with the invariant that a visual with a named material has the model's material of that name; refuted: names of visuals are not written |
| C94 | Show, Decimal | six-digit rounding with Flocq's FLX format in radix 10; the printed string is a numeral of the reader's grammar with that value |
| C95 | Print, TinyXml | what is printed spells the tree (grammar of Spec_Xml), so the parser reads it back; refuted for values that contain the start of a hexadecimal reference |
| C96 | Print, Export, Appear, TinyXml | every string of a description that was read is a value of an attribute of the document; with C92, C94 and C95 |
| C97 | Kin, Wrapper, Py | refuted for every instance: an id past the end reaches an unchecked vector access; known ids return |
| C98 | FloatArith, Wrapper, Kin | the pose and Jacobian bounds of C76 and C83 at each waypoint, then error propagation through differences, products and sums (Pf_Float9) |
| C99 | TinyXml, Export, Print, Show, Kin | composes C96, C92 and the loading theorem: the saved robot is described by Spec_Saved as the image of the original under printing, ordering of names is preserved, ids and limits follow from the abstraction of the constructor; the mass is a sum of rounded nonnegative terms; refutation by computing the tower of C92 |
| C100 | Ieee, Kin, Wrapper | a Jacobian column over doubles is the column over rounded reals (every intermediate result is below 2^1024 by the pose bounds of C89), then the error bounds of C83 |
| C101 | Ieee, Wrapper, Kin | differences, products and sums of finite doubles below 2^440 are the same over rounded reals (Pf_Ieee7), then the error bounds of C98 |
| C102 | Ieee, Kin | running sums of doubles of bounded size stay below 2^1000 and are the sums over rounded reals; the total is not zero, so neither is the divisor (Pf_Ieee8); then the error bounds of C84 |
| C103 | exact reals; `set_base_pose`, `get_com`, `get_total_inertia_matrix` | the bodies at base B are the bodies at the origin transformed by B (`fk_base`); first moments are linear; the parallel-axis tensor of a rotated offset is the rotated tensor because Q Qᵀ = Id; `Pf_Rigid.v`, `Thm_Rigid.v` |
| C104 | exact reals; `get_com` | a mean with non-negative weights satisfies every linear inequality its points satisfy; `Pf_Rigid.v`, `Thm_Rigid.v` |
| C105 | exact reals; `motion` of a joint, `get_link_pose`, `get_jacobian`, `get_com`, `get_total_inertia_matrix` | half-angle sine and cosine change sign together under half of a whole number of turns; same-placement is a congruence for composition, rotation of vectors, matrices and Euler angles; `Spec_Turn.v`, `Pf_Turn.v`, `Thm_Turn.v` |
| C106 | exact reals; `set_joint_angles`, `set_base_pose`, `get_link_pose` | a joint that carries both links moves them by one common transform (`chain`), one that carries neither moves none (`fk_local`), and a common transform cancels in the relative pose; induction over the joints set; `Spec_Relative.v`, `Pf_Relative.v`, `Thm_Relative.v` |
| C107 | exact reals; `get_link_pose` | triangle inequality along the chain, rotations keep lengths; `Spec_Reach.v`, `Pf_Reach2.v`, `Thm_Reach.v` |
| C108 | exact reals; `set_joint_angles` on one joint, `get_link_pose` | the chain beyond the joint is rigid; the chord of a turn by d is at most d times the lever, from a polynomial identity and sin x <= x; `Pf_Reach2.v`, `Thm_Reach.v` |
| C109 | exact reals; `set_joint_angles` on any distinct joints, `get_link_pose` | one joint after the other by C108, with the lever bounded by the chain length beyond the joint; `Pf_Reach2.v`, `Thm_Reach.v` |
| C110 | exact reals; `set_joint_angles` on distinct joints along a differentiable path, `get_link_pose`, `get_jacobian` | every placement on the path moves as a rigid motion whose velocity is the sum of the joints' contributions, by induction along the chain (`Pf_Velocity.v`, `Pf_Velocity2.v`, `Pf_Velocity3.v`, `Pf_Velocity4.v`); `Spec_Velocity.v`, `Thm_Velocity.v` |
| C111 | exact reals; `get_com`, `get_com_jacobian` along a path | C110 for every body's dummy link, weighted by mass; `Pf_Velocity5.v`, `Thm_Velocity.v` |
| C112 | exact reals; `compute_inter_link_squared_dists` along a path of waypoints | C110 at the state each waypoint sets, and the product rule; `Pf_Velocity6.v`, `Thm_Velocity.v` |
| C113 | exact reals; `get_jacobian`, `get_link_pose` | quaternion and cross-product identities on the geometric columns; `Spec_Column.v`, `Pf_Column.v`, `Thm_Column.v` |
| C114 | exact reals; `get_jacobian` | the lever is bounded by the chain length beyond the joint (`Pf_Reach2.v`); `Pf_Column.v`, `Thm_Column.v` |
| C115 | exact reals; `set_base_pose`, `get_jacobian`, `get_com_jacobian` | poses are moved by B (C06), rotations preserve cross products, the centre-of-mass columns are weighted means; `Pf_BaseTurn.v`, `Thm_BaseTurn.v` |
| C116 | exact reals; `compute_inter_link_squared_dists`, `set_base_pose` | columns and offsets with the base at B are those with the base at the origin turned by B (as in C115); rotations preserve inner products; `Pf_Pair.v`, `Thm_Pair.v` |
| C117 | exact reals; `compute_inter_link_squared_dists` | both columns are 0, or they are those of one motion and differ by a vector at right angles to the offset; `Pf_Pair.v`, `Thm_Pair.v` |
| C118 | exact reals; two calls of `compute_inter_link_squared_dists` | each row is the inner product of the difference of Jacobian columns with the offset, which are determined by waypoint and link; swapping the links changes both signs; `Pf_Pair.v`, `Thm_Pair.v` |
| C119 | any arithmetic; two calls on the parts against one call on the whole batch | every row of an answer is determined by its own waypoint (poses, Jacobians and offsets are functions of the robot, the angles and the base), and the model left by a call differs from the one before only in angles and base that the next waypoint overwrites; `Pf_Batch.v`, `Thm_Batch.v` |
| C120 | any arithmetic; two calls with different rotation types | the first three rows of a Jacobian satisfy the specification of a Jacobian without rotation rows, which has only one solution; `Pf_Rows.v`, `Thm_Batch.v` |
| C121 | Wrapper | refuted for a fixed base (slider robot, two waypoints); with the base in the waypoints, and for a cleared cache and one repeated waypoint, proved by comparing both calls with the specification of distances (`Pf_Recall2.v`, `Thm_Recall2.v`) |
| C122 | Wrapper | both calls meet the specification of poses, Jacobians and distances, which determines one answer per link and waypoint (`Pf_Batch.v`, `Thm_Alike.v`) |

## 4. Trusted base

* Coq 8.16.1's kernel (and its `vm_compute` conversion where used). No kernel check is switched off.
* The correspondence between the Gallina functions and the cited source lines (each definition cites its lines and
  says what it simplifies).
* Axioms: only those of the standard library (real numbers, classical logic, functional extensionality), listed per
  theorem at the end. Flocq and Coquelicot are used, but add none.

### Modelled

| model file | source |
|------------|--------|
| Base, Num | outcomes; the arithmetic the code is written against |
| Pose | urdf_model/pose.h (Vector3, Rotation, Pose: all methods used), urdf_parser/src/pose.cpp (parsePose) |
| Decimal | urdf_model/utils.h (split_string, strToDouble), the numerals `stringstream >> double` accepts |
| DataStructure | include/data_structure.hpp (SizedCache, SizedStack) |
| Urdf | urdf_parser/src/model.cpp (parseURDF), joint.cpp (parse functions), link.cpp (parseLink, parseInertial), model.h (initTree, initRoot), urdf_parser.h (URDFVersion) |
| TinyXml | tinyxml/tinyxmlparser.cpp, the parts of tinyxml.cpp, tinyxml.h, tinystr it calls |
| Kin | src/tinyfk.cpp, src/kinematics.cpp, include/tinyfk.hpp, joint.h (transform) |
| LoadFile | src/tinyfk.cpp (load_urdf) |
| Wrapper | src/wrapper.cpp |
| Py, PyRef | python/tinyfk/__init__.py (PyRef: arguments by reference) |
| Conc | interleavings of get_link_pose |
| Heap | several models: link objects, shared_ptr/weak_ptr, copies, destructors |
| RealArith, FloatArith | the arithmetic over the reals, exact and rounded |
| Ieee | the arithmetic of IEEE doubles |
| Import | what importing the Python package does to ~/.tinyfk; the constructor's urdfpath argument |
| Export | the URDF writer: exportURDF and everything it calls, and the data of joints that only it uses |
| Show | how a C++ stream prints a double with six digits (%g) |
| Print | TinyXML's printing of elements to files and streams |

### Not modelled

TinyXML's printing of nodes other than elements, errors of the file system, pybind11's conversions, test, benchmark and example
programs, integer wrap-around, allocation failure, threads other than in C61.

### What `Print Assumptions` lists

* **no axioms** (closed under the global context) — 110 theorems: C81_looks_never_matter, C81_same_model, C82_looks_as_written, C82_visual_elements, C82_collision_elements, C61_calls_one_at_a_time_partial, C61_remembered_poses_partial, C58_cache_is_finite_map, C59_stack_is_bounded_lifo, C92_export_partial, C92_everything_is_read, C92_export_refuted, C93_export_looks_partial, C93_export_looks_refuted, C33_solve_fk_each_waypoint, C34_solve_fk_cached_partial, C35_solve_fk_ends_at_last_waypoint, C20_solve_com_fk_with_base_partial, C38_inter_link_squared_distances, C85_separate_models, C86_copies_partial, C87_no_dangling, C88_no_leak_partial, C25_link_ids_stable_bijection, C26_joint_ids_stable_bijection, C27_unknown_names_rejected, C28_added_link_is_rigid_and_disturbs_nothing, C30_set_get_joint_angles, C44_position_limits_are_those_of_the_document, C45_velocity_effort_limits_partial, C97_unknown_ids_refuted, C97_known_ids_partial, C90_import_fetches_robots_refuted, C90_files_are_beginnings_partial, C90_first_import_partial, C90_later_imports_partial, C91_whole_robot_or_none, C51_python_files, C09_columns_zero_exactly_off_the_path, C16_jacobian_layout, C17_jacobian_memory_safety_partial, C46_empty_string_raises_partial, C46_malformed_document_raises_refuted, C47_unsupported_joint_raises, C48_accepted_graphs_partial, C49_terminates_without_cycles_partial, C49_divergence_is_endless, C50_element_order_irrelevant, C51_load_urdf, C55_vector_attributes, C55_words_unique, C55_numbers, C57_com_name_refuted, C74_only_documents_load_partial, C21_total_mass_is_constant_sum, C24_compute_inertia_cleared_partial, C57_com_name_partial, C60_inertial_contents_never_matter_refuted, C62_mimic_joints_follow_partial, C65_long_vectors_partial, C40_pickle_roundtrip, C41_pickle_again_partial, C42_structure_survives_partial, C43_copy_partial, C01_link_pose_is_chain_product, C03_cache_transparency, C04_queries_do_not_change_configuration, C05_joint_motion_is_local, C08_pose_memory_safety_partial, C95_printed_documents_partial, C95_printed_documents_refuted, C96_saved_robots_partial, C96_saved_robots_refuted, C29_rejected_add_new_link_partial, C30_set_q_get_q, C32_ill_sized_vectors_rejected, C33_python_solve_fk, C36_planar_is_floating, C36_planar_distances, C37_com_jacobian_columns_partial, C63_instances_independent, C64_instances_wrap_reached_objects, C65_short_vectors_refuted, C20_python_solve_com_fk_floating_partial, C21_python_total_mass, C38_python_squared_distances, C44_python_joint_limits, C78_arguments_by_reference_partial, C78_pickles_follow_arrays_partial, C66_joint_elements, C66_constructed_models, C66_readable_documents_load, C66_meaning_unique, C67_link_elements, C67_link_data, C68_ignored_nodes, C34_first_waypoint_repeated_partial, C20_first_waypoint_repeated_partial, C99_saved_models_partial, C99_saved_models_refuted, C69_documents_are_read_as_written, C70_written_trees_read_back, C71_utf8_texts_are_parsed, C71_uncut_texts_are_parsed, C71_any_text_refuted, C72_truncated_documents_never_load, C73_text_to_model, C73_model_to_text, C73_layout_is_irrelevant, C75_attributes_are_unambiguous.
* axioms `Classical_Prop.classic` — 5 theorems: C122_links_are_answered_alike, C122_com_is_answered_alike, C119_batches_can_be_split, C120_rotation_type_only_adds_rows, C121_cached_distances_partial.
* axioms `ClassicalDedekindReals.sig_forall_dec`, `ClassicalDedekindReals.sig_not_dec`, `Classical_Prop.classic`, `FunctionalExtensionality.functional_extensionality_dep` — 81 theorems: C79_com_base_columns, C80_distance_base_columns, C115_jacobian_columns_turn_with_base, C113_jacobian_columns_are_rigid_motions, C114_jacobian_columns_are_bounded, C61_concurrent_queries_refuted, C10_position_rows_are_derivatives, C11_quaternion_rows_are_derivatives, C12_rpy_rows_are_derivatives, C13_base_translation_columns_exact, C14_base_rotation_columns_approximate, C15_base_rotation_columns_bounded_refuted, C94_printed_numbers, C94_printed_colours, C94_written_files_are_read, C34_solve_fk_cached_refuted, C20_solve_com_fk_refuted, C38_squared_distance_symmetric, C76_rounded_poses, C76_rounded_waypoints, C77_rounded_reading, C98_rounded_distances, C83_rounded_jacobians, C83_rounded_waypoint_jacobians, C84_rounded_centre_of_mass, C19_com_jacobian_is_derivative, C39_distance_gradient_is_derivative, C86_copies_refuted, C88_no_leak_refuted, C45_velocity_effort_limits_refuted, C89_double_poses, C89_double_waypoints, C101_double_distances, C100_double_jacobians, C100_double_waypoint_jacobians, C102_double_centre_of_mass, C17_jacobian_without_inertial_refuted, C48_only_trees_refuted, C49_terminates_refuted, C60_malformed_inertial_rejected_refuted, C18_com_is_mass_weighted_mean, C21_total_mass_is_sum_over_document, C22_inertia_is_parallel_axis_sum, C23_inertial_frame_orientation_refuted, C24_compute_inertia_refuted, C56_com_with_forces, C62_mimic_joints_follow_refuted, C116_distances_do_not_depend_on_base, C117_gradient_needs_only_joints_between, C118_pairs_are_answered_alike, C54_rpy_near_gimbal_lock_partial, C23_inertial_frame_orientation_partial, C15_base_rotation_columns_bounded_partial, C41_pickle_twice_refuted, C42_unrecorded_configuration_refuted, C43_copy_refuted, C08_pose_memory_safety_refuted, C96_saved_files_are_read_partial, C29_rejected_add_new_link_pickle_refuted, C31_set_q_get_q_base, C37_com_jacobian_columns_planar_refuted, C78_arguments_by_reference_refuted, C107_links_stay_within_reach, C108_one_joint_moves_along_its_axis, C109_small_joint_steps_move_links_little, C02_quaternion_fk_is_matrix_fk, C06_base_moves_every_link_rigidly, C07_orientations_are_unit_quaternions, C52_poses_form_a_group, C53_rpy_exact_away_from_gimbal_lock, C54_rpy_near_gimbal_lock_refuted, C121_cached_distances_refuted, C106_relative_pose_needs_only_joints_between, C103_base_moves_mass_rigidly, C104_centre_of_mass_is_among_bodies, C99_saved_mass_partial, C105_whole_turns_change_nothing, C110_jacobian_times_speeds_is_link_velocity, C111_com_jacobian_times_speeds_is_com_velocity, C112_distance_gradient_times_speeds_is_rate, C74_only_documents_load_refuted.
