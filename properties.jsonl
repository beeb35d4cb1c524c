{"id": "C01", "title": "Link pose is the product of transforms along the kinematic chain", "statement": "For every link of a robot built from a tree-shaped URDF, the pose returned by get_link_pose equals base pose composed, from the root down to that link, with (joint origin composed with the joint motion at its current angle), fixed joints contributing only their origin.", "quantifier": "every tree-shaped URDF (any number of links, any depth), every joint-angle vector, every base pose, every link", "why_tests_cant": "Tests check one robot at one configuration; the claim ranges over all trees and all configurations.", "anchors": ["src/kinematics.cpp:KinematicModel::get_link_pose, get_link_pose_inner", "urdf_parser/src/pose.cpp:pose_transform", "urdf_parser/include/urdf_model/joint.h:Joint::transform"]}
{"id": "C02", "title": "Quaternion FK agrees with the URDF rotation-matrix semantics", "statement": "In exact arithmetic, when revolute/continuous axes are unit vectors, the position and orientation of every link equal those obtained with homogeneous 4x4 matrices, where a revolute/continuous joint is the Rodrigues rotation by its angle about its axis, a prismatic joint is a translation along its axis, and an rpy origin is Rz(yaw)Ry(pitch)Rx(roll).", "quantifier": "every tree, every configuration, every unit axis, every rpy origin", "why_tests_cant": "Agreement of two real-analytic parametrisations over a continuum cannot be sampled exhaustively.", "anchors": ["urdf_parser/include/urdf_model/pose.h:Rotation::operator*, setFromRPY, GetInverse", "urdf_parser/include/urdf_model/joint.h:Joint::transform", "urdf_parser/src/pose.cpp:pose_transform"]}
{"id": "C03", "title": "Answers do not depend on which queries were made before (cache transparency)", "statement": "After any history of set_q / set_joint_angles / set_base_pose / add_new_link / clear_cache / pose and Jacobian queries / solve_fk(use_cache=False), get_link_pose returns exactly (bit for bit) the value that the same configuration gives with an empty cache.", "quantifier": "every sequence of operations of any length, every arithmetic (including IEEE doubles)", "why_tests_cant": "The cache state is a function of the whole history; histories are unbounded.", "anchors": ["src/kinematics.cpp:get_link_pose_inner", "include/data_structure.hpp:SizedCache", "src/tinyfk.cpp:set_joint_angles, add_new_link, clear_cache"]}
{"id": "C04", "title": "Queries do not change the configuration", "statement": "get_link_pose, get_jacobian, get_com, get_com_jacobian and get_total_inertia_matrix leave joint angles, base pose, links, joints, ids and limits unchanged; only cached poses may change.", "quantifier": "every model state, every query argument", "why_tests_cant": "Must hold for every state and argument; a test observes a few fields at a few states.", "anchors": ["src/kinematics.cpp:get_link_pose, get_jacobian, get_com, get_com_jacobian, get_total_inertia_matrix"]}
{"id": "C05", "title": "Moving a joint only moves the links below it", "statement": "Changing the angles of some joints leaves the pose of every link that has none of those joints between itself and the root unchanged.", "quantifier": "every tree, every configuration, every set of joints, every link", "why_tests_cant": "Universally quantified frame condition over trees and configurations.", "anchors": ["src/kinematics.cpp:get_link_pose_inner", "src/tinyfk.cpp:_set_joint_angles"]}
{"id": "C06", "title": "Moving the base moves every link rigidly", "statement": "In exact arithmetic the pose of a link under base pose B equals B composed with the pose of that link under the identity base pose.", "quantifier": "every tree, configuration, base pose and link", "why_tests_cant": "Ranges over all base poses and trees.", "anchors": ["src/kinematics.cpp:get_link_pose_inner", "include/tinyfk.hpp:set_base_pose", "urdf_parser/src/pose.cpp:pose_transform"]}
{"id": "C07", "title": "Returned orientations are unit quaternions", "statement": "In exact arithmetic, if revolute/continuous axes are unit vectors and the base rotation is a unit quaternion (always the case through the Python API), the quaternion returned for every link has norm 1.", "quantifier": "every tree, configuration and link", "why_tests_cant": "Norm preservation along chains of arbitrary length.", "anchors": ["urdf_parser/include/urdf_model/pose.h:Rotation", "urdf_parser/include/urdf_model/joint.h:Joint::transform", "src/kinematics.cpp:get_link_pose_inner"]}
{"id": "C08", "title": "Pose queries never touch memory out of bounds", "statement": "For a model built from a tree-shaped URDF and extended by any add_new_link calls, get_link_pose with a valid link id never reads or writes outside its internal buffers.", "quantifier": "every tree, every history of add_new_link calls, every query order", "why_tests_cant": "The number of stacked transforms depends on depth and on cache contents; no finite set of robots settles the bound.", "anchors": ["src/kinematics.cpp:get_link_pose_inner", "include/data_structure.hpp:SizedStack::push", "src/tinyfk.cpp:KinematicModel ctor, add_new_link"]}
{"id": "C09", "title": "Jacobian columns are zero exactly for joints that do not carry the link", "statement": "In get_jacobian, the column of joint j for link l is forced to zero precisely when j is not on the path from the root to l.", "quantifier": "every tree, every link, every joint, after every history of add_new_link", "why_tests_cant": "Reachability over arbitrary trees, recomputed after every extension.", "anchors": ["src/tinyfk.cpp:update_rptable", "include/tinyfk.hpp:RelevancePredicateTable", "src/kinematics.cpp:get_jacobian"]}
{"id": "C10", "title": "Position Jacobian is the derivative of the position", "statement": "In exact arithmetic with unit axes, row k (k<3) of the column of joint j returned by get_jacobian(l) is the partial derivative of the k-th coordinate of the position of l with respect to the angle of j.", "quantifier": "every tree, configuration, link, joint (revolute, continuous, prismatic)", "why_tests_cant": "A derivative is a limit over infinitely many configurations; tests use one finite difference.", "anchors": ["src/kinematics.cpp:get_jacobian"]}
{"id": "C11", "title": "Quaternion Jacobian is the derivative of the quaternion", "statement": "In exact arithmetic with unit axes, rows 3..6 of the column of joint j returned by get_jacobian(l, XYZW) are the partial derivatives of the x,y,z,w components of the returned orientation with respect to the angle of j.", "quantifier": "every tree, configuration, link and joint", "why_tests_cant": "Limit statement over a continuum; sign convention ('why minus????' in the source) is unclear without a proof.", "anchors": ["src/kinematics.cpp:get_jacobian, q_derivative", "urdf_parser/include/urdf_model/pose.h:Rotation::inverse"]}
{"id": "C12", "title": "RPY Jacobian is the derivative of roll, pitch, yaw", "statement": "In exact arithmetic with unit axes, rows 3..5 of the column of joint j returned by get_jacobian(l, RPY) are the partial derivatives of the roll, pitch, yaw returned for l with respect to the angle of j, whenever the orientation is away from gimbal lock and roll and yaw are not at the +-pi cut.", "quantifier": "every tree, configuration, link and joint away from the singular set", "why_tests_cant": "Limit statement over a continuum with a singular set.", "anchors": ["src/kinematics.cpp:rpy_derivative, get_jacobian", "urdf_parser/include/urdf_model/pose.h:Rotation::getRPY"]}
{"id": "C13", "title": "Base translation columns of the Jacobian are exact", "statement": "With with_base, the three base-translation columns of the position rows are the exact partial derivatives of the link position with respect to the base position (the identity), and zero in the orientation rows.", "quantifier": "every tree, configuration, link, rotation type", "why_tests_cant": "Derivative statement over all states.", "anchors": ["src/kinematics.cpp:get_jacobian"]}
{"id": "C14", "title": "Base rotation columns of the Jacobian approximate the derivative", "statement": "With with_base and a base orientation given by (roll,pitch,yaw) with pitch away from +-pi/2, each base-rotation column of the position rows differs from the exact partial derivative of the link position with respect to the base roll, pitch or yaw by at most a constant times eps=1e-7 times the distance from base to link.", "quantifier": "every tree, configuration and base orientation away from gimbal lock", "why_tests_cant": "Error bound of a finite difference over a continuum.", "anchors": ["src/kinematics.cpp:get_jacobian"]}
{"id": "C15", "title": "Base rotation columns stay bounded for every base orientation", "statement": "For every base pose that can be set, including yaw outside (-pi,pi] and pitch near +-pi/2, the base-rotation columns of the Jacobian are the derivative up to a small error.", "quantifier": "every base orientation reachable through set_base_pose, all rotation types", "why_tests_cant": "The failures live on a measure-small set (wrap-around and gimbal lock) that random tests miss.", "anchors": ["src/kinematics.cpp:get_jacobian", "urdf_parser/include/urdf_model/pose.h:Rotation::getRPY, setFromRPY"]}
{"id": "C16", "title": "Jacobian shape and column layout", "statement": "get_jacobian returns a matrix with 3, 6 or 7 rows (IGNORE, RPY, XYZW) and one column per requested joint in the requested order followed by six base columns if requested; the column of a joint depends only on that joint, so permuting, repeating or dropping requested joints permutes, repeats or drops columns.", "quantifier": "every state, link, joint list, rotation type", "why_tests_cant": "Quantifies over all joint lists and orders.", "anchors": ["src/kinematics.cpp:get_jacobian"]}
{"id": "C17", "title": "Jacobian queries never touch memory out of bounds", "statement": "For every model the constructor accepts from a tree-shaped URDF, get_jacobian with valid link and joint ids never reads outside its tables.", "quantifier": "every tree-shaped URDF, including those without inertial elements", "why_tests_cant": "Requires reasoning about every URDF, e.g. those for which the relevance table is never filled in.", "anchors": ["src/tinyfk.cpp:KinematicModel ctor, update_rptable", "src/kinematics.cpp:get_jacobian", "include/tinyfk.hpp:RelevancePredicateTable::isRelevant"]}
{"id": "C18", "title": "Centre of mass is the mass-weighted mean", "statement": "In exact arithmetic with non-zero total mass, get_com is the sum over links with an inertial element of mass times the world position of its inertial origin, divided by the sum of the masses.", "quantifier": "every tree, configuration and inertial data", "why_tests_cant": "Sum over arbitrarily many links over a continuum.", "anchors": ["src/kinematics.cpp:get_com", "src/tinyfk.cpp:KinematicModel ctor (COM dummy links)"]}
{"id": "C19", "title": "COM Jacobian is the derivative of the COM", "statement": "In exact arithmetic, the joint columns of get_com_jacobian are the partial derivatives of get_com with respect to the joint angles.", "quantifier": "every tree, configuration, joint list", "why_tests_cant": "Limit statement over a continuum and over arbitrary trees.", "anchors": ["src/kinematics.cpp:get_com_jacobian"]}
{"id": "C20", "title": "solve_com_fk treats each waypoint independently", "statement": "Row i of solve_com_fk(qs) is the centre of mass at configuration qs[i], whatever was computed before.", "quantifier": "every list of waypoints, every prior history, fixed/planar/floating base", "why_tests_cant": "The answer depends on cache contents left by earlier waypoints and calls.", "anchors": ["src/wrapper.cpp:solve_com_forward_kinematics", "python/tinyfk/__init__.py:KinematicModel.solve_com_fk"]}
{"id": "C21", "title": "total_mass is the sum of the link masses and is what COM averages with", "statement": "total_mass equals the sum of the masses of all links having an inertial element, never changes, and equals the normaliser used by get_com.", "quantifier": "every URDF, every history", "why_tests_cant": "Invariant over all histories.", "anchors": ["src/tinyfk.cpp:KinematicModel ctor", "src/kinematics.cpp:get_com", "src/wrapper.cpp:total_mass_"]}
{"id": "C22", "title": "Total inertia matrix obeys the parallel-axis sum", "statement": "In exact arithmetic, get_total_inertia_matrix is the sum over massive links of R I R^T + m(|d|^2 Id - d d^T) with R the rotation of the link and d the offset of its centre of mass from the global one; it is symmetric, and positive semidefinite when every link inertia is.", "quantifier": "every tree, configuration, inertial data", "why_tests_cant": "Matrix identities over a continuum.", "anchors": ["src/kinematics.cpp:get_total_inertia_matrix"]}
{"id": "C23", "title": "Total inertia takes the inertial frame's orientation into account", "statement": "The inertia tensor of a link is rotated by the orientation (rpy) of its URDF inertial origin.", "quantifier": "every URDF with rotated inertial frames", "why_tests_cant": "Test robots have zero inertial rpy, which hides the effect.", "anchors": ["src/tinyfk.cpp:KinematicModel ctor lines 97-107", "src/kinematics.cpp:get_total_inertia_matrix"]}
{"id": "C24", "title": "compute_total_inertia_matrix depends only on the given configuration", "statement": "compute_total_inertia_matrix(q, joint_ids) returns the inertia at configuration q whatever was computed before.", "quantifier": "every pair of consecutive calls, every prior history", "why_tests_cant": "Depends on the cache left by earlier calls.", "anchors": ["src/wrapper.cpp:compute_total_inertia_matrix"]}
{"id": "C25", "title": "Link names and link ids are in bijection and stable", "statement": "get_link_ids(names) gives the position of each name in get_link_names(); names are pairwise distinct; ids already handed out never change when links are added.", "quantifier": "every URDF, every history of add_new_link (including failing ones), every name list", "why_tests_cant": "Invariant over all histories.", "anchors": ["src/tinyfk.cpp:get_link_ids, add_new_link", "include/tinyfk.hpp:get_link_names"]}
{"id": "C26", "title": "Joint names and joint ids are in bijection and stable", "statement": "get_joint_ids(names) gives the position of each name in get_joint_names(); joint names are exactly the names of the revolute, continuous and prismatic joints, in lexicographic order; joint ids never change.", "quantifier": "every URDF, every history, every name list", "why_tests_cant": "Invariant over all histories and URDFs.", "anchors": ["src/tinyfk.cpp:get_joint_ids, KinematicModel ctor", "include/tinyfk.hpp:get_joint_names"]}
{"id": "C27", "title": "Unknown names are rejected without side effects", "statement": "get_link_ids / get_joint_ids raise exactly when some name is unknown and otherwise return one id per name; they never change the model.", "quantifier": "every name list, every state", "why_tests_cant": "All name lists over all states.", "anchors": ["src/tinyfk.cpp:get_link_ids, get_joint_ids"]}
{"id": "C28", "title": "add_new_link attaches rigidly and disturbs nothing else", "statement": "After add_new_link(name, parent, xyz, rpy) the new link's pose is the parent's pose composed with the offset at every later configuration, and the pose and Jacobian of every pre-existing link are unchanged.", "quantifier": "every tree, every history, every offset", "why_tests_cant": "Must hold at all later configurations and for all links.", "anchors": ["src/tinyfk.cpp:add_new_link, update_rptable"]}
{"id": "C29", "title": "A rejected add_new_link leaves the model unchanged", "statement": "add_new_link with a name already in use raises and leaves the kinematic model and its pickled form exactly as before.", "quantifier": "every state, every duplicate name", "why_tests_cant": "Ranges over all states; pickled form is only observed much later.", "anchors": ["src/tinyfk.cpp:add_new_link", "python/tinyfk/__init__.py:KinematicModel.add_new_link, __setstate__"]}
{"id": "C30", "title": "set_q followed by get_q returns the same joint vector", "statement": "After set_q(joint_ids, q) with pairwise distinct valid ids, get_q(joint_ids) returns q, other joints keep their angles, and with repeated ids the last value wins.", "quantifier": "every id list, every vector, every state", "why_tests_cant": "All id lists, including repetitions.", "anchors": ["python/tinyfk/__init__.py:set_q, get_q", "src/tinyfk.cpp:_set_joint_angles, get_joint_angles"]}
{"id": "C31", "title": "set_q followed by get_q returns the same base pose", "statement": "In exact arithmetic, after set_q with a PLANER or FLOATING base, get_q with the same base type returns the same base coordinates, provided |pitch| is away from pi/2 and roll, yaw lie in (-pi,pi].", "quantifier": "every base pose in that range", "why_tests_cant": "Trigonometric identity over a continuum with cut and singular set.", "anchors": ["python/tinyfk/__init__.py:set_q, get_q", "src/wrapper.cpp:set_base_pose, get_base_pose", "urdf_parser/include/urdf_model/pose.h:setFromRPY, getRPY"]}
{"id": "C32", "title": "Ill-sized vectors are rejected by set_q, set_base_pose and solve_fk", "statement": "set_q and solve_fk raise when the vector length does not match the joint list and base type; set_base_pose raises unless it gets six numbers; on rejection the kinematic model is unchanged.", "quantifier": "every length and base type", "why_tests_cant": "All lengths.", "anchors": ["python/tinyfk/__init__.py:set_q, solve_fk", "src/wrapper.cpp:set_base_pose, solve_forward_kinematics"]}
{"id": "C33", "title": "solve_fk treats each waypoint independently (default cache mode)", "statement": "With use_cache=False, after any history whatsoever, row i*n_link+j of solve_fk(qs, links) is the pose of links[j] at configuration qs[i], and the corresponding Jacobian block is the Jacobian of links[j] there.", "quantifier": "every history (including stale caches), every waypoint list, link list, joint list, base type, rotation type", "why_tests_cant": "Requires the absence of interference across unbounded histories.", "anchors": ["src/wrapper.cpp:solve_forward_kinematics", "python/tinyfk/__init__.py:solve_fk"]}
{"id": "C34", "title": "solve_fk with use_cache=True still answers for the given configuration", "statement": "With use_cache=True, solve_fk(qs, ...) returns the poses at qs.", "quantifier": "every history and waypoint list", "why_tests_cant": "Depends on what is in the cache; the docstring only says 'potentially dangerous'.", "anchors": ["src/wrapper.cpp:solve_forward_kinematics"]}
{"id": "C35", "title": "solve_fk leaves the model at the last waypoint", "statement": "After solve_fk the listed joints (and base, if any) are at the last waypoint and all other joints keep their angles.", "quantifier": "every waypoint list, joint list, state", "why_tests_cant": "Effect on state over all inputs.", "anchors": ["src/wrapper.cpp:solve_forward_kinematics"]}
{"id": "C36", "title": "Planar base is the floating base with z=roll=pitch=0", "statement": "solve_fk with a PLANER base returns the poses of the FLOATING call with (x,y,0,0,0,yaw), and its Jacobian is the FLOATING Jacobian with the z, roll, pitch columns removed.", "quantifier": "every state, waypoint list, link list, joint list", "why_tests_cant": "Index arithmetic over all sizes.", "anchors": ["python/tinyfk/__init__.py:_modify_input_with_3dof_base, solve_fk"]}
{"id": "C37", "title": "solve_com_fk's Jacobian has one column per coordinate of q", "statement": "The Jacobian returned by solve_com_fk has as many columns as the configuration vectors passed in, for every base type.", "quantifier": "every base type and joint list", "why_tests_cant": "Only one base type misbehaves; no test covers it.", "anchors": ["python/tinyfk/__init__.py:solve_com_fk"]}
{"id": "C38", "title": "Inter-link squared distances are right and symmetric", "statement": "compute_inter_link_sqdists returns, for waypoint i and pair j at index i*n_pairs+j, the squared Euclidean distance between the two link positions at that waypoint; it is non-negative and unchanged when the pair is swapped.", "quantifier": "every history, waypoint list, pair list, with the base in the waypoints or without caching (use_cache=False, the default; C121 is about use_cache=True)", "why_tests_cant": "All inputs.", "anchors": ["src/wrapper.cpp:compute_inter_link_squared_dists", "python/tinyfk/__init__.py:compute_inter_link_sqdists"]}
{"id": "C39", "title": "Inter-link distance gradient is the derivative", "statement": "In exact arithmetic each row of the returned gradient is the vector of partial derivatives of the corresponding squared distance with respect to the joint angles.", "quantifier": "every tree with unit axes, history, configuration, pair, list of distinct joints, with the base in the waypoints or without caching (use_cache=False, the default)", "why_tests_cant": "Limit statement.", "anchors": ["src/wrapper.cpp:compute_inter_link_squared_dists"]}
{"id": "C40", "title": "Pickling restores links, angles and base pose", "statement": "Unpickling a pickled model (changed only through add_new_link and set_q) gives a model with the same link names and ids, joint angles, base pose and hence the same answers.", "quantifier": "every history of successful add_new_link and set_q calls in any interleaving", "why_tests_cant": "The restored model replays the history in a different order; unbounded histories.", "anchors": ["python/tinyfk/__init__.py:__getstate__, __setstate__"]}
{"id": "C41", "title": "Pickling can be repeated", "statement": "Pickling and unpickling twice gives the same model as doing it once.", "quantifier": "every history", "why_tests_cant": "Existing tests only round-trip once.", "anchors": ["python/tinyfk/__init__.py:__setstate__"]}
{"id": "C42", "title": "Pickling captures the current configuration", "statement": "The unpickled model has the joint angles the pickled model had at the time of pickling, whatever calls set them.", "quantifier": "every history including solve_fk", "why_tests_cant": "Depends on which calls are recorded.", "anchors": ["python/tinyfk/__init__.py:__getstate__, __setstate__, solve_fk"]}
{"id": "C43", "title": "copy.copy leaves the original intact", "statement": "Copying a model with copy.copy does not change the original: it can be copied or pickled again with the same result.", "quantifier": "every history", "why_tests_cant": "Aliasing of the recorded history between original and copy shows only on the second copy.", "anchors": ["python/tinyfk/__init__.py:__getstate__, __setstate__, add_new_link, set_q"]}
{"id": "C44", "title": "Joint position limits are those of the URDF", "statement": "get_joint_limits returns (None, None) exactly for continuous joints and joints with infinite bounds, and otherwise the lower and upper attributes of the URDF (0 when absent), and never dereferences a missing limit element.", "quantifier": "every URDF, every id list", "why_tests_cant": "All URDFs, including those where the limit element is absent.", "anchors": ["src/tinyfk.cpp:get_joint_position_limits", "urdf_parser/src/joint.cpp:parseJoint, parseJointLimits", "python/tinyfk/__init__.py:get_joint_limits"]}
{"id": "C45", "title": "Velocity and effort limits are safe to query", "statement": "get_joint_velocity_limits and get_joint_effort_limits return the URDF values and never dereference a missing limit element.", "quantifier": "every URDF, every joint id", "why_tests_cant": "Continuous joints without a limit element are legal URDF but rare in test robots.", "anchors": ["src/tinyfk.cpp:get_joint_velocity_limits, get_joint_effort_limits", "urdf_parser/src/joint.cpp:parseJoint"]}
{"id": "C46", "title": "A malformed document makes the constructor raise", "statement": "Constructing a model from a string that is empty or is not a valid robot description raises an exception (no crash).", "quantifier": "every document", "why_tests_cant": "All malformed documents.", "anchors": ["src/tinyfk.cpp:KinematicModel ctor", "urdf_parser/src/model.cpp:parseURDF"]}
{"id": "C47", "title": "Unsupported joint types make the constructor raise", "statement": "A robot description containing a floating or planar joint is rejected with an exception.", "quantifier": "every otherwise valid robot description", "why_tests_cant": "All descriptions.", "anchors": ["src/tinyfk.cpp:KinematicModel ctor"]}
{"id": "C48", "title": "Only kinematic trees are accepted", "statement": "If a model is constructed, the joint graph is a tree: every joint joins two existing links, exactly one link has no parent, no link has two parent joints, and every link is connected to the root.", "quantifier": "every robot description", "why_tests_cant": "All graphs, including cyclic and multi-parent ones.", "anchors": ["urdf_parser/include/urdf_model/model.h:initTree, initRoot", "urdf_parser/src/model.cpp:parseURDF"]}
{"id": "C49", "title": "The constructor terminates", "statement": "Constructing a model from any document terminates.", "quantifier": "every document", "why_tests_cant": "Termination over all graphs.", "anchors": ["src/tinyfk.cpp:KinematicModel ctor, update_rptable"]}
{"id": "C50", "title": "Ids do not depend on the order of elements in the file", "statement": "Reordering the link and joint elements of a robot description yields the same link ids, joint ids, poses and masses.", "quantifier": "every permutation of every description", "why_tests_cant": "All permutations.", "anchors": ["urdf_parser/src/model.cpp:parseURDF", "src/tinyfk.cpp:KinematicModel ctor"]}
{"id": "C51", "title": "Reading a URDF file", "statement": "load_urdf returns the file's contents followed by one newline, and the empty string for an unreadable file, from which constructing a model raises.", "quantifier": "every file content", "why_tests_cant": "All byte strings.", "anchors": ["src/tinyfk.cpp:load_urdf, KinematicModel ctor"]}
{"id": "C52", "title": "Pose composition is a group action", "statement": "In exact arithmetic pose composition is associative with the identity pose as unit, and pose.inverse() is a two-sided inverse for every pose with non-zero rotation quaternion.", "quantifier": "every triple of poses", "why_tests_cant": "Algebraic law over a continuum.", "anchors": ["urdf_parser/src/pose.cpp:pose_transform", "urdf_parser/include/urdf_model/pose.h:Pose::inverse, Rotation"]}
{"id": "C53", "title": "RPY conversion is exact away from gimbal lock", "statement": "In exact arithmetic setFromRPY(r,p,y) is the quaternion of Rz(y)Ry(p)Rx(r), and getRPY returns angles describing the same rotation whenever |sin pitch| < 0.99999.", "quantifier": "every rotation", "why_tests_cant": "Trigonometric identities over a continuum.", "anchors": ["urdf_parser/include/urdf_model/pose.h:setFromRPY, getRPY"]}
{"id": "C54", "title": "RPY conversion is exact everywhere", "statement": "getRPY returns angles describing the same rotation for every unit quaternion.", "quantifier": "every rotation including those near gimbal lock", "why_tests_cant": "The failing set is small (|sin pitch| >= 0.99999).", "anchors": ["urdf_parser/include/urdf_model/pose.h:getRPY"]}
{"id": "C55", "title": "Vector attributes are parsed as exactly three numbers", "statement": "A vector attribute is accepted exactly when its space-separated non-empty pieces are three numbers, and then denotes these numbers in order.", "quantifier": "every attribute string", "why_tests_cant": "All strings.", "anchors": ["urdf_parser/include/urdf_model/utils.h:split_string, strToDouble", "urdf_parser/include/urdf_model/pose.h:Vector3::init"]}
{"id": "C56", "title": "COM with external forces is the force-weighted mean", "statement": "In exact arithmetic solve_com_fk with action links and vertical forces returns (M com + sum f_j p_j)/(M + sum f_j) with M the total mass.", "quantifier": "every state with a floating or planar base, force list, link list", "why_tests_cant": "Weighted sums over a continuum.", "anchors": ["src/wrapper.cpp:solve_com_forward_kinematics"]}
{"id": "C57", "title": "A link named <x>_com does not break construction", "statement": "A URDF containing both a massive link x and a link named x_com can be loaded.", "quantifier": "every URDF", "why_tests_cant": "Name-collision cases are outside normal test robots.", "anchors": ["src/tinyfk.cpp:KinematicModel ctor, add_new_link"]}
{"id": "C58", "title": "The transform cache behaves like a finite map", "statement": "For every sequence of set/get/clear/extend with ids in range, get returns the last value set for that id since the last clear or extend, and nothing otherwise; ids out of range are undefined behaviour.", "quantifier": "every operation sequence", "why_tests_cant": "Unbounded sequences.", "anchors": ["include/data_structure.hpp:SizedCache"]}
{"id": "C59", "title": "The transform stack behaves like a bounded LIFO", "statement": "For every sequence of push/pop/top/reset that never exceeds the capacity, pops return pushed elements in reverse order; pushing beyond capacity is undefined behaviour.", "quantifier": "every operation sequence", "why_tests_cant": "Unbounded sequences.", "anchors": ["include/data_structure.hpp:SizedStack"]}
{"id": "C60", "title": "Malformed inertial data is rejected", "statement": "A URDF whose inertial element is malformed (missing mass or inertia) cannot be loaded.", "quantifier": "every URDF", "why_tests_cant": "Silent acceptance is invisible unless masses are inspected.", "anchors": ["urdf_parser/src/model.cpp:parseURDF (ignored result of parseLink)", "urdf_parser/src/link.cpp:parseLink, parseInertial"]}
{"id": "C61", "title": "Concurrent read-only queries are independent", "statement": "Two threads calling the const method get_link_pose on the same model obtain the same poses as when run one after the other.", "quantifier": "every interleaving of the two calls", "why_tests_cant": "Schedules cannot be enumerated by tests.", "anchors": ["src/kinematics.cpp:get_link_pose_inner", "include/tinyfk.hpp:transform_stack_, transform_cache_ (mutable)"]}
{"id": "C62", "title": "Mimic joints follow the joint they mimic", "statement": "For a URDF joint with a mimic element, FK uses multiplier*angle(mimicked)+offset for that joint.", "quantifier": "every URDF with mimic joints, every configuration", "why_tests_cant": "The parser reads mimic; whether FK honours it for every robot is not covered.", "anchors": ["urdf_parser/src/joint.cpp:parseJointMimic", "src/kinematics.cpp:get_link_pose_inner"]}
{"id": "C63", "title": "Instances are independent", "statement": "Calls on one Python instance, including construction, copying and unpickling of others, never change another instance's model or its pickled form.", "quantifier": "every program on any number of instances", "why_tests_cant": "Aliasing bugs need particular interleavings.", "anchors": ["python/tinyfk/__init__.py:KinematicModel"]}
{"id": "C64", "title": "An instance always wraps a fully built model", "statement": "After any program, with any exceptions caught, each Python instance wraps a model made by the constructor from its own document and changed only by the class's methods; no call leaves an instance without model or with a half-built one.", "quantifier": "every program", "why_tests_cant": "Exception paths at every point of every program.", "anchors": ["python/tinyfk/__init__.py:KinematicModel, __setstate__"]}
{"id": "C65", "title": "Ill-sized vectors are rejected by the inertia and distance queries", "statement": "compute_total_inertia_matrix and compute_inter_link_sqdists raise when a configuration vector is shorter than the joint list (no undefined behaviour).", "quantifier": "every length", "why_tests_cant": "Out-of-bounds reads often go unnoticed in tests.", "anchors": ["python/tinyfk/__init__.py:compute_total_inertia_matrix, compute_inter_link_sqdists", "src/wrapper.cpp:compute_total_inertia_matrix, compute_inter_link_squared_dists"]}
{"id": "C66", "title": "Joint elements are read as written", "statement": "Each joint element yields the joint its attributes and children prescribe (name, type, origin with identity default, parent and child, axis defaulting to 1 0 0, limits, mimic); every constructed model comes from a document that reads as a robot description, every document that reads as a tree-shaped robot with supported joints loads, and a document has at most one meaning.", "quantifier": "every XML tree, every attribute string", "why_tests_cant": "Attribute combinations and defaults are unbounded.", "anchors": ["urdf_parser/src/joint.cpp:parseJoint, parseJointLimits, parseJointMimic", "urdf_parser/src/model.cpp:parseURDF"]}
{"id": "C67", "title": "Link elements are read as written", "statement": "Each link element yields its name and the mass, inertia and origin of its inertial element exactly as written; of a malformed inertial element exactly the parts before the mistake are kept.", "quantifier": "every XML tree", "why_tests_cant": "Attribute combinations are unbounded.", "anchors": ["urdf_parser/src/link.cpp:parseLink, parseInertial", "urdf_parser/src/pose.cpp:parsePose"]}
{"id": "C68", "title": "Comments, visuals and foreign elements have no effect", "statement": "Two documents that differ only by comments, text, visual, collision or unknown elements give the same model, or fail in the same way.", "quantifier": "every pair of documents", "why_tests_cant": "Arbitrary nested content.", "anchors": ["urdf_parser/src/model.cpp:parseURDF", "urdf_parser/src/link.cpp:parseLink", "urdf_parser/src/joint.cpp:parseJoint"]}
{"id": "C69", "title": "XML text is read as the document it spells", "statement": "A text that spells an XML document (optional byte order mark and declaration, comments, document type, one root element with quoted attributes, entity and character references, nested elements, comments and character data, any layout) is parsed to exactly that document: same tags, attribute names and values, nesting and order.", "quantifier": "every text of that grammar", "why_tests_cant": "The grammar is infinite; layout, quoting and references combine without bound.", "anchors": ["urdf_parser/tinyxml/tinyxmlparser.cpp:TiXmlDocument::Parse, TiXmlElement::Parse, ReadValue, TiXmlAttribute::Parse, ReadText, GetEntity"]}
{"id": "C70", "title": "Written documents read back unchanged", "statement": "Writing any tree with proper names and UTF-8 attribute values in the obvious way (escaping &, < and the quote) and loading the text gives the same tree.", "quantifier": "every tree", "why_tests_cant": "Arbitrary attribute values and nesting.", "anchors": ["urdf_parser/tinyxml/tinyxmlparser.cpp:TiXmlDocument::Parse, GetEntity"]}
{"id": "C71", "title": "Parsing any text terminates and stays inside the text", "statement": "Constructing a model from a text string, well-formed or not, finishes parsing it without an endless loop and without reading past its end.", "quantifier": "every text", "why_tests_cant": "Malformed inputs cannot be enumerated.", "anchors": ["urdf_parser/tinyxml/tinyxmlparser.cpp:TiXmlParsingData::Stamp, SkipWhiteSpace, ReadText, TiXmlDeclaration::Parse", "urdf_parser/tinyxml/tinyxml.h:GetChar"]}
{"id": "C72", "title": "A truncated robot description never loads", "statement": "If a robot description is cut off anywhere before the end of its root element, no model is constructed from the part that is left.", "quantifier": "every description, every cut position", "why_tests_cant": "Cut positions in all documents cannot be enumerated.", "anchors": ["urdf_parser/tinyxml/tinyxmlparser.cpp:TiXmlElement::Parse, ReadValue", "urdf_parser/src/model.cpp:parseURDF", "src/tinyfk.cpp:KinematicModel"]}
{"id": "C73", "title": "From text to model", "statement": "A text that spells a document describing a tree-shaped robot with supported joints is loaded as that robot; every constructed model comes from a robot description in its text; layout, quoting, comments and ignored elements do not change the model.", "quantifier": "every text", "why_tests_cant": "Combines the unbounded grammar with unbounded robots.", "anchors": ["src/tinyfk.cpp:KinematicModel", "urdf_parser/src/model.cpp:parseURDF", "urdf_parser/tinyxml/tinyxmlparser.cpp:TiXmlDocument::Parse"]}
{"id": "C74", "title": "Only well-formed XML is accepted", "statement": "A text from which a model is constructed is a well-formed XML document.", "quantifier": "every text", "why_tests_cant": "Malformed inputs cannot be enumerated.", "anchors": ["urdf_parser/tinyxml/tinyxmlparser.cpp:TiXmlDocument::Parse, TiXmlAttribute::Parse, TiXmlComment::Parse"]}
{"id": "C75", "title": "Attributes are unambiguous", "statement": "No element of a document from which a model is constructed has two attributes of the same name.", "quantifier": "every text", "why_tests_cant": "Malformed inputs cannot be enumerated.", "anchors": ["urdf_parser/tinyxml/tinyxmlparser.cpp:TiXmlElement::Parse"]}
{"id": "C76", "title": "Floating-point link poses are accurate", "statement": "If every operation is rounded with relative and absolute error at most u, then after the same calls on the same document the reported link poses (get_link_pose, solve_fk) differ from those of exact arithmetic by at most a bound proportional to u: linear in the number of joints above the link for the rotation, quadratic for the position.", "quantifier": "every document with bounded angles and lengths, every call sequence, every rounding scheme of accuracy u (IEEE doubles in particular), every link", "why_tests_cant": "A test compares a few poses with reference values; error growth along chains of every length and every rounding pattern cannot be sampled.", "anchors": ["src/kinematics.cpp:get_link_pose", "urdf_parser/include/urdf_model/pose.h:Rotation, Vector3, Pose", "src/tinyfk.cpp:set_base_pose, add_new_link", "src/wrapper.cpp:solve_forward_kinematics", "urdf_parser/include/urdf_model/joint.h:Joint::transform"]}
{"id": "C77", "title": "Floating-point reading is accurate", "statement": "Rounding does not change which documents are readable, and every joint origin and axis that is read is near the exact one.", "quantifier": "every document, every rounding scheme of accuracy u", "why_tests_cant": "Arbitrary numerals and rounding patterns.", "anchors": ["urdf_parser/src/joint.cpp:parseJoint", "urdf_parser/src/pose.cpp:parsePose", "urdf_parser/include/urdf_model/pose.h:setFromRPY, init", "urdf_parser/include/urdf_model/utils.h:strToDouble"]}
{"id": "C78", "title": "Arguments belong to the caller", "statement": "What a program does to an array or list after passing it to set_q or add_new_link does not affect the model: copies and unpickled copies are as if the call had been given a copy.", "quantifier": "every program over any number of instances, arrays and lists", "why_tests_cant": "Aliasing between the caller's objects and the recorded calls shows only in particular orders of calls and writes; programs cannot be enumerated.", "anchors": ["python/tinyfk/__init__.py:set_q, add_new_link, __getstate__, __setstate__"]}
{"id": "C79", "title": "Base columns of the centre-of-mass Jacobian", "statement": "In exact arithmetic the three base translation columns of get_com_jacobian are the identity and are the derivatives of get_com with respect to the base position; away from gimbal lock the three rotation columns differ from the derivatives with respect to roll, pitch and yaw by at most 4e-7 times the mass-weighted mean distance of the bodies from the base.", "quantifier": "every document, call sequence without stale caches, joint selection and base pose with |sin pitch| < 0.99999", "why_tests_cant": "Derivatives and error bounds hold at uncountably many configurations; a numerical test fixes one and its own step size.", "anchors": ["src/kinematics.cpp:get_com_jacobian, get_jacobian", "src/tinyfk.cpp:set_base_pose"]}
{"id": "C80", "title": "Distances between links do not depend on the base", "statement": "The squared distance reported by compute_inter_link_squared_dists is the same for every base pose in the waypoint; the gradient's base translation columns are 0, and its base rotation columns are 0 up to 16e-7 times the links' distance times the sum of their distances from the base.", "quantifier": "every document, call sequence, waypoint with |sin pitch| < 0.99999 and pair of links", "why_tests_cant": "Every base pose and configuration; the finite-difference columns are only nearly 0, which a test's tolerance hides or misreports.", "anchors": ["src/wrapper.cpp:compute_inter_link_squared_dists", "src/kinematics.cpp:get_jacobian"]}
{"id": "C81", "title": "The looks of a robot never matter", "statement": "Whatever the material, visual and collision elements of a description contain, well-formed or not, construction succeeds, fails and yields exactly as if only names, inertial data and joints had been read; only a repeated material name is an error.", "quantifier": "every text", "why_tests_cant": "Malformed colours, shapes and textures in every combination and position cannot be enumerated, and early returns inside the reader could skip data read after them.", "anchors": ["urdf_parser/src/link.cpp:parseLink, parseVisual, parseCollision, parseMaterial, parseGeometry", "urdf_parser/src/model.cpp:parseURDF, assignMaterial", "urdf_parser/include/urdf_model/color.h:Color::init"]}
{"id": "C82", "title": "Visuals, collisions and materials are read as written", "statement": "For every accepted document urdf::parseURDF returns, for each link, the visuals up to the first malformed one, and the collisions if all visuals are well-formed, with the origin, shape, name and material written in it; a named material is the robot's definition of that name, otherwise the first definition inside a visual so far.", "quantifier": "every accepted document", "why_tests_cant": "Lookup order depends on all earlier visuals of all earlier links; documents and definition orders are unbounded.", "anchors": ["urdf_parser/src/link.cpp:parseLink, parseVisual, parseCollision, parseMaterial, parseGeometry, parseSphere, parseBox, parseCylinder, parseMesh", "urdf_parser/src/model.cpp:parseURDF, assignMaterial"]}
{"id": "C83", "title": "Jacobians in floating point are near the exact ones", "statement": "If every arithmetic operation rounds with error at most u, then after the same calls each joint column of get_jacobian, and of the Jacobians reported by solve_fk, differs from the exactly computed one by at most 4e7*u*(1+A)*L*(D+1)^2 in the position rows and 4e6*u*(1+A)*(D+1) in the quaternion rows, where A bounds the angles, L the lengths and D the number of joints above a link.", "quantifier": "every document with moderate numbers, call sequence, link, joint selection and accurate rounding (IEEE doubles among them)", "why_tests_cant": "Rounding errors accumulate along every chain and at every configuration; a test compares one library against another at a few points.", "anchors": ["src/kinematics.cpp:get_jacobian, q_derivative", "src/wrapper.cpp:solve_forward_kinematics", "urdf_parser/include/urdf_model/pose.h:Rotation, pose_transform", "urdf_parser/src/pose.cpp:cross_product"]}
{"id": "C84", "title": "Mass and centre of mass in floating point are near the exact ones", "statement": "If every arithmetic operation rounds with error at most u, then after the same calls the total mass differs from the exact M by at most 4*u*N*(1+M), get_com from the exact centre of mass by at most 4e7*u*(1+A)*L*(D+1)^2 + 400*u*L*(D+1)*N*(1+1/M), and each joint column of get_com_jacobian by at most five times as much, where N is the number of links with mass, A bounds the angles, L the lengths and D the number of joints above a link.", "quantifier": "every document with moderate numbers and nonnegative masses, call sequence, joint selection and accurate rounding (IEEE doubles among them)", "why_tests_cant": "Rounding errors accumulate over every chain and over the sum of all links, at every configuration.", "anchors": ["src/kinematics.cpp:get_com, get_com_jacobian, get_jacobian, set_inertial_info", "src/tinyfk.cpp:KinematicModel", "urdf_parser/include/urdf_model/pose.h:pose_transform"]}
{"id": "C85", "title": "Separate models do not influence each other", "statement": "In a program that constructs any number of KinematicModel objects, calls their methods in any order and destroys them at any time, without copying them, every construction and every call has the outcome it would have if that model were alone.", "quantifier": "every program: any number of documents and models, any interleaving of constructions, method calls and destructions", "why_tests_cant": "Models share link objects only through pointers; whether some order of calls and destructions makes one model see another's links needs all programs.", "anchors": ["include/tinyfk.hpp:KinematicModel", "src/tinyfk.cpp:KinematicModel, add_new_link, update_rptable", "urdf_parser/include/urdf_model/link.h:Link", "urdf_parser/include/urdf_model/joint.h:Joint"]}
{"id": "C86", "title": "Copied models do not influence each other", "statement": "Copies made with the implicit copy constructor of KinematicModel behave like independent models: calls on one, add_new_link included, never change the outcome of calls on another.", "quantifier": "every program with constructions, copies (of copies), method calls and destructions", "why_tests_cant": "The copies share their link objects; damage shows only when related copies add links in particular orders.", "anchors": ["include/tinyfk.hpp:KinematicModel", "src/tinyfk.cpp:add_new_link, update_rptable"]}
{"id": "C87", "title": "No model points to a destroyed link", "statement": "Whatever a program does with models and copies of them, every link that an existing model points to (in its lists, as the child of a joint, as the parent or a child of a link) still exists: shared pointers are never null and weak pointers never expired.", "quantifier": "every program with constructions, copies, method calls and destructions, and every point in it", "why_tests_cant": "Lifetimes depend on the order of destructions of objects sharing links; a dangling or expired pointer is only seen in particular orders.", "anchors": ["include/tinyfk.hpp:KinematicModel", "urdf_parser/include/urdf_model/link.h:setParent, getParent", "urdf_parser/include/urdf_model/joint.h:setChildLink, getChildLink"]}
{"id": "C88", "title": "Links are freed with their models", "statement": "At any point of a program every link that still exists belongs to an existing model or lies below one of its links; when all models are destroyed no link is left.", "quantifier": "every program with constructions, copies, method calls and destructions, and every document", "why_tests_cant": "Leaks through cycles of shared pointers depend on the document's graph; documents and programs are unbounded.", "anchors": ["include/tinyfk.hpp:KinematicModel", "urdf_parser/include/urdf_model/link.h:child_links", "urdf_parser/src/model.cpp:initTree"]}
{"id": "C89", "title": "Doubles do not overflow", "statement": "Computing with IEEE doubles, infinities and NaN included: a document whose numerals are below 2^1000 loads if it loads in exact arithmetic, and after any history of calls with angles at most A and lengths at most L <= 2^900 every pose get_link_pose and solve_fk report consists of finite numbers and lies within the bounds of the rounding property (C76) of the exact pose.", "quantifier": "every platform whose literals, sin, cos and numeral reading are accurate up to u; every document, history of calls, configuration, and number D of joints with 4e6 u (1+A) (D+1) <= 1", "why_tests_cant": "An overflow or NaN in an intermediate product appears only for particular magnitudes and chains of joints.", "anchors": ["urdf_parser/include/urdf_model/pose.h:pose_transform, Rotation, Vector3", "src/kinematics.cpp:get_link_pose", "src/wrapper.cpp:solve_forward_kinematics", "urdf_parser/include/urdf_model/utils.h:strToDouble"]}
{"id": "C90", "title": "Importing the package provides the bundled robots", "statement": "Once `import tinyfk` has returned, the files named by pr2_urdfpath() and fetch_urdfpath() hold the complete robot descriptions; an import raises only if something fails during it.", "quantifier": "every history of imports by any number of processes: every interleaving, every point at which a process is killed or a system call or the connection fails, every text on the server", "why_tests_cant": "Depends on where an earlier import was interrupted and on how imports overlap; the number of crash points and interleavings is unbounded.", "anchors": ["python/tinyfk/__init__.py:_cache_dir, pr2_urdfpath, fetch_urdfpath"]}
{"id": "C91", "title": "A bundled robot loads whole or not at all", "statement": "Whatever happened during earlier imports, a model constructed from the file pr2_urdfpath() or fetch_urdfpath() names is the model of the complete description on the server; a file that was cut off never loads as a smaller robot.", "quantifier": "every history of imports as in the previous property, every arithmetic and every well-formed description that ends with its root element", "why_tests_cant": "Ranges over every crash point and hence every prefix of every description.", "anchors": ["python/tinyfk/__init__.py:_cache_dir, pr2_urdfpath, fetch_urdfpath", "src/tinyfk.cpp:KinematicModel", "urdf_parser/tinyxml/tinyxmlparser.cpp:TiXmlDocument::Parse"]}
{"id": "C92", "title": "Writing a description and reading it again gives the same robot", "statement": "The document that exportURDF writes for a robot description can be read again and describes the same robot: the same links and inertial data, and the same joints with their origins, axes, limits and further data, up to the precision with which numbers are printed.", "quantifier": "every document that parseURDF accepts and every way of printing numbers that yields numbers", "why_tests_cant": "Ranges over all documents; a forgotten or misplaced element shows only for descriptions that use it.", "anchors": ["urdf_parser/src/model.cpp:exportURDF, parseURDF", "urdf_parser/src/link.cpp:exportLink, exportInertial", "urdf_parser/src/joint.cpp:exportJoint", "urdf_parser/src/pose.cpp:exportPose, values2str"]}
{"id": "C93", "title": "Writing a description and reading it again keeps the looks", "statement": "The document that exportURDF writes for a robot description has, read again, the same materials and every link has the same visuals and collisions, up to the precision with which numbers are printed.", "quantifier": "every document that parseURDF accepts, every way of printing numbers that yields numbers and colours", "why_tests_cant": "Ranges over all documents, in particular all ways in which visuals refer to materials.", "anchors": ["urdf_parser/src/link.cpp:exportMaterial, exportGeometry, exportVisual, exportCollision, parseVisual", "urdf_parser/src/model.cpp:exportURDF, assignMaterial"]}
{"id": "C94", "title": "Written numbers are read back", "statement": "Every number that exportURDF writes is read back as a number that differs by at most five millionths of it, and as the same number if it has at most six significant digits; colours stay colours; hence written files can be read again.", "quantifier": "every real number that is zero or between 1e-900 and 1e308 in size, in particular every finite double", "why_tests_cant": "Printing has several formats and roundings at every digit; no finite set of numbers covers them.", "anchors": ["urdf_parser/src/pose.cpp:values2str", "urdf_parser/include/urdf_model/utils.h:strToDouble", "urdf_parser/include/urdf_model/color.h:Color::init"]}
{"id": "C95", "title": "Printed documents are read back as they were", "statement": "A document of elements that TinyXML prints, to a file or to a stream, is parsed back as the same document: names, attribute values and nesting.", "quantifier": "every tree of elements with proper names and distinct attribute names, every UTF-8 attribute value", "why_tests_cant": "Escaping, quoting and pass-through of references depend on every character and its neighbours; trees and values are unbounded.", "anchors": ["urdf_parser/tinyxml/tinyxml.cpp:TiXmlBase::EncodeString, TiXmlAttribute::Print, TiXmlElement::Print, TiXmlDocument::SaveFile, operator<<", "urdf_parser/tinyxml/tinyxmlparser.cpp:TiXmlDocument::Parse"]}
{"id": "C96", "title": "Saved robots can be loaded again", "statement": "A robot that was read from a text, exported with exportURDF and saved to a file or put on a stream, is read from that file or stream just as from the exported document in memory; with numbers printed by the standard stream that always succeeds.", "quantifier": "every UTF-8 XML text that is read as a robot, every way of printing numbers as plain ASCII words", "why_tests_cant": "Ranges over all texts and all strings in them, through the parser, the reader, the writer and the printer.", "anchors": ["urdf_parser/src/model.cpp:exportURDF, parseURDF", "urdf_parser/tinyxml/tinyxml.cpp:TiXmlBase::EncodeString, TiXmlDocument::SaveFile", "urdf_parser/tinyxml/tinyxmlparser.cpp:TiXmlDocument::Parse"]}
{"id": "C97", "title": "Ids that were never handed out are refused", "statement": "Calling a query or update with a joint or link id that no name lookup of this model returns raises an error and leaves the process usable; with ids that were handed out the calls return.", "quantifier": "every instance reached by any history of calls and every list of ids", "why_tests_cant": "Ranges over all ids and all models; an out-of-range read often goes unnoticed in a test run.", "anchors": ["src/tinyfk.cpp:set_joint_angles, get_joint_angles, get_joint_position_limits, add_new_link", "src/kinematics.cpp:get_link_pose", "python/tinyfk/__init__.py:KinematicModel"]}
{"id": "C98", "title": "Distances between links survive rounding", "statement": "Computed with doubles, each squared distance between two links, and each entry of its gradient for a joint, is near the exact one: the error is at most a constant times the rounding unit, the square of the lengths involved and the cube of the depth of the robot.", "quantifier": "every arithmetic that rounds each operation accurately, every document and history of calls with angles and lengths below a bound, every waypoint and pair of links, without caching (use_cache=False, the default)", "why_tests_cant": "Rounding errors depend on every input and accumulate along chains and products; no finite set of inputs bounds them.", "anchors": ["src/wrapper.cpp:compute_inter_link_squared_dists", "src/kinematics.cpp:get_link_pose, get_jacobian"]}
{"id": "C99", "title": "A model loaded from a saved robot behaves like the original", "statement": "A robot is read from a text, exported with exportURDF and saved with SaveFile. A model constructed from the saved file has the same link ids and joint ids as one constructed from the original text, its joint position limits and its total mass are the same up to how numbers are printed, and every link has the same pose.", "quantifier": "all robot texts that are loaded, all ways of printing numbers and the standard stream in particular, all lists of joint ids", "why_tests_cant": "Tests compare a few saved files; here the whole chain of parsing, exporting, printing, parsing again and constructing must agree for every robot.", "anchors": ["urdf_parser/src/model.cpp:exportURDF, parseURDF", "urdf_parser/src/joint.cpp:exportJoint", "urdf_parser/tinyxml/tinyxml.cpp:TiXmlDocument::SaveFile", "src/tinyfk.cpp:KinematicModel"]}
{"id": "C100", "title": "Jacobians in IEEE doubles do not overflow", "statement": "Computed with IEEE doubles, where a result can be infinite or not a number, the entries of a joint column of a Jacobian (position rows and quaternion rows) are finite and near the exact ones, as long as angles and lengths are moderate.", "quantifier": "every platform with accurate sin, cos and numeral reading, every document and history of calls with lengths up to 2^900 and numerals below 2^1000, every link, joint and waypoint", "why_tests_cant": "Overflow and NaN depend on the magnitudes of all inputs and intermediate results; no finite set of inputs excludes them.", "anchors": ["src/kinematics.cpp:get_jacobian", "src/wrapper.cpp:solve_forward_kinematics", "urdf_parser/include/urdf_model/pose.h:Rotation"]}
{"id": "C101", "title": "Distances in IEEE doubles do not overflow", "statement": "Computed with IEEE doubles, where a result can be infinite or not a number, each squared distance between two links, and each entry of its gradient for a joint, is finite and near the exact one, as long as angles and lengths are moderate.", "quantifier": "every platform with accurate sin, cos and numeral reading, every document and history of calls with lengths up to 2^400 and numerals below 2^1000, every waypoint and pair of links, without caching (use_cache=False, the default)", "why_tests_cant": "Squares overflow long before lengths do; magnitudes of all inputs and intermediate results matter.", "anchors": ["src/wrapper.cpp:compute_inter_link_squared_dists", "src/kinematics.cpp:get_link_pose, get_jacobian"]}
{"id": "C102", "title": "The centre of mass in IEEE doubles does not overflow", "statement": "Computed with IEEE doubles, where a result can be infinite or not a number, the total mass, the centre of mass and the entries of its Jacobian for the joints are finite and near the exact ones, as long as angles, lengths and masses are moderate.", "quantifier": "every platform with accurate sin, cos and numeral reading, every document and history of calls with lengths and total mass up to 2^400 and numerals below 2^1000, every list of joints", "why_tests_cant": "Running sums of mass times position and the final division can overflow or divide by zero depending on all inputs at once.", "anchors": ["src/kinematics.cpp:get_com, get_com_jacobian", "src/tinyfk.cpp:KinematicModel"]}
{"id": "C103", "title": "Moving the base moves the centre of mass rigidly and turns the inertia", "statement": "Let the joint angles be fixed, all turning axes be unit vectors and the total mass be non-zero. Let c0 and I0 be the centre of mass and the total inertia matrix computed with the base at the origin, and let B be any base pose with a unit quaternion, rotation matrix Q and position t. With the base at B the centre of mass is Q c0 + t and the total inertia matrix is Q I0 Q^T. This holds after every history of calls, whatever the caches held.", "quantifier": "every loadable robot, every history, every base pose with a unit quaternion", "why_tests_cant": "A test moves one robot's base to a few poses; the relation must hold for every robot, posture and base pose, and a slip in one term of the parallel-axis formula can cancel at the poses chosen.", "anchors": ["src/kinematics.cpp:set_base_pose, get_com, get_total_inertia_matrix"]}
{"id": "C104", "title": "The centre of mass lies among the bodies", "statement": "When no link has a negative mass and the total mass is positive, the computed centre of mass lies in every half-space that contains the inertial origins of all links with mass, placed by forward kinematics. So it lies in their convex hull, for every posture, base pose and history.", "quantifier": "every loadable robot with non-negative masses, every history, every half-space", "why_tests_cant": "Convexity quantifies over all half-spaces and all postures; a test checks a few numbers.", "anchors": ["src/kinematics.cpp:get_com", "src/tinyfk.cpp:KinematicModel ctor (COM dummy links)"]}
{"id": "C105", "title": "Whole turns of a joint change no placement", "statement": "In exact arithmetic, setting the same joints to angles that differ by whole turns (2 pi times an integer, for revolute and continuous joints only) gives every link the same position, the same rotation matrix, the same roll and pitch and the same yaw up to whole turns. The centre of mass, the total inertia matrix, position Jacobians with or without base, and roll-pitch-yaw Jacobians without base are equal. The quaternion is the same or its opposite, and one turn of one joint does give the opposite, so quaternion output is not periodic.", "quantifier": "every loadable robot, every history, every set of joints, every two angle vectors that differ by whole turns, every link", "why_tests_cant": "The number of turns and the combinations of joints are unbounded, and the signs of quaternions depend on all joints of the path together.", "anchors": ["src/kinematics.cpp:get_link_pose, get_jacobian, get_com, get_total_inertia_matrix", "src/tinyfk.cpp:set_joint_angles", "urdf_parser/include/urdf_model/pose.h:Rotation"]}
{"id": "C106", "title": "The pose of one link seen from another depends only on the joints between them", "statement": "In exact arithmetic, take two links and set any joints that carry both of them or neither, and move the base anywhere. The pose of the second link in the frame of the first is unchanged, and so is the distance between them.", "quantifier": "every loadable robot with unit axes, every history, every pair of links, every set of joints none of which carries exactly one of them, every base pose with a unit quaternion", "why_tests_cant": "Which joints carry which link depends on the tree, and the joints set and their values are unbounded.", "anchors": ["src/kinematics.cpp:get_link_pose", "src/tinyfk.cpp:set_joint_angles, set_base_pose", "urdf_parser/include/urdf_model/pose.h:Pose, pose_inverse"]}
{"id": "C107", "title": "Links stay within reach", "statement": "In exact arithmetic, a link is never farther from the root link than the chain between them is long: the sum of the lengths of the joint and attachment offsets, plus what the sliding joints are pulled out by.", "quantifier": "every loadable robot with unit axes, every history, every link, every posture", "why_tests_cant": "The bound is over all postures of all trees; a test samples a few.", "anchors": ["src/kinematics.cpp:get_link_pose, get_link_pose_inner", "src/tinyfk.cpp:set_joint_angles, add_new_link"]}
{"id": "C108", "title": "One joint moves links along its axis or around it", "statement": "In exact arithmetic, changing one joint from a to b moves every link it carries as follows. If the joint slides, the link keeps its orientation and is shifted by (b - a) times the axis in the world. If it turns, the link keeps its distance to the child link of the joint and moves no farther than |b - a| times that distance.", "quantifier": "every loadable robot with unit axes, every history, every movable joint, every link it carries, every two joint values", "why_tests_cant": "It is about all pairs of joint values and all postures of the other joints.", "anchors": ["src/kinematics.cpp:get_link_pose, get_link_pose_inner", "src/tinyfk.cpp:set_joint_angles"]}
{"id": "C109", "title": "Small joint steps move links little", "statement": "In exact arithmetic, if every joint stays within a bound chosen in advance, setting joints moves a link no farther than the sum over these joints of the step times a gain. The gain is 0 for a joint that does not carry the link, the length of the axis for a sliding joint, and the length of the chain beyond the joint for a turning joint. So link positions are Lipschitz continuous in the joint vector, with a constant known from the description.", "quantifier": "every loadable robot with unit axes, every history, every link, every set of distinct joints, every two joint vectors within the bounds", "why_tests_cant": "Continuity quantifies over all pairs of configurations; tests sample pairs.", "anchors": ["src/kinematics.cpp:get_link_pose, get_link_pose_inner", "src/tinyfk.cpp:set_joint_angles, get_joint_angles"]}
{"id": "C110", "title": "A Jacobian times the joint speeds is the velocity of the link", "statement": "In exact arithmetic, let any distinct joints move together along any differentiable path through their current angles. Each number reported for a link (position, quaternion, or roll-pitch-yaw away from the gimbal and wrap-around points) then changes at the rate given by its row of get_jacobian times the joint speeds.", "quantifier": "every loadable robot with unit axes, every history of successful calls, every link, every list of distinct joints, every differentiable joint path, every rotation type, with or without base", "why_tests_cant": "It is a limit along arbitrary paths of all joints together, not a finite difference in one joint.", "anchors": ["src/kinematics.cpp:get_jacobian, get_link_pose", "src/tinyfk.cpp:set_joint_angles"]}
{"id": "C111", "title": "The centre-of-mass Jacobian times the joint speeds is the velocity of the centre of mass", "statement": "In exact arithmetic, let any distinct joints move together along any differentiable path through their current angles. The reported centre of mass then moves with the velocity given by get_com_jacobian times the joint speeds.", "quantifier": "every loadable robot with unit axes, every history of successful calls, every list of distinct joints, every differentiable joint path, with or without base", "why_tests_cant": "It is a limit along arbitrary paths of all joints together, summed over all bodies.", "anchors": ["src/kinematics.cpp:get_com_jacobian, get_com", "src/tinyfk.cpp:set_joint_angles"]}
{"id": "C112", "title": "The distance gradient times the joint speeds is the rate of change of the squared distance", "statement": "In exact arithmetic, let the joint part of a waypoint move along any differentiable path with its base part fixed. The squared distance reported for each pair of links then changes at the rate given by that pair's row of the gradient times the joint speeds. This needs use_cache=false or waypoints with a base.", "quantifier": "every loadable robot with unit axes, every history, every list of waypoints and link pairs, every list of distinct joints, every differentiable joint path through a waypoint", "why_tests_cant": "It is a limit along arbitrary paths of all joints together, for batches of any length.", "anchors": ["src/wrapper.cpp:compute_inter_link_squared_dists", "src/kinematics.cpp:get_jacobian, get_link_pose", "src/tinyfk.cpp:set_joint_angles"]}
{"id": "C113", "title": "Columns of Jacobians are motions of rigid bodies", "statement": "In exact arithmetic, the quaternion rows of a joint's column of get_jacobian are at right angles to the link's quaternion, so no joint changes its norm. They are 0 if the joint slides or does not carry the link, and have length 1/2 otherwise. For two links that both follow a joint or both do not, the joint's two position columns do not change the distance between the links.", "quantifier": "every loadable robot with unit axes, every history of successful calls, every list of joints, every column, every link and pair of links, with or without base", "why_tests_cant": "The orthogonality must hold at every posture; a numeric test cannot tell a small violation from rounding.", "anchors": ["src/kinematics.cpp:get_jacobian, get_link_pose"]}
{"id": "C114", "title": "Columns of Jacobians are no longer than the robot", "statement": "In exact arithmetic, while every joint stays within a bound chosen in advance, the position rows of a joint's column of get_jacobian are no longer than the joint's gain: 0 if it does not carry the link, the length of the axis if it slides, the length of the chain beyond it if it turns.", "quantifier": "every loadable robot with unit axes, every history of successful calls, every link, every list of joints, every column, every rotation type, with or without base", "why_tests_cant": "The bound is over all postures of all trees.", "anchors": ["src/kinematics.cpp:get_jacobian"]}
{"id": "C115", "title": "Columns of Jacobians turn with the base", "statement": "In exact arithmetic, moving the base from the origin to a pose B turns the position rows of every joint column of get_jacobian and of get_com_jacobian by the rotation of B, and multiplies the quaternion rows by the quaternion of B. Nothing else about the joint columns changes.", "quantifier": "every loadable robot with unit axes, every history, every base pose with a unit quaternion, every link, every list of joints, every joint column", "why_tests_cant": "It relates two runs for all base poses and postures.", "anchors": ["src/kinematics.cpp:get_jacobian, get_com_jacobian", "src/tinyfk.cpp:set_base_pose"]}
{"id": "C116", "title": "Distances between links do not depend on the base", "statement": "In exact arithmetic, compute_inter_link_squared_dists answers the same squared distances and the same joint columns of the gradient whatever the base pose is, both when the base is part of the waypoints and when it was set beforehand.", "quantifier": "every loadable robot with unit axes, every history, every list of joints and pairs of links, every waypoint, all base poses with unit quaternions, for a fixed base without caching (use_cache=False, the default)", "why_tests_cant": "It relates two runs for all base poses and postures.", "anchors": ["src/wrapper.cpp:compute_inter_link_squared_dists", "src/tinyfk.cpp:set_base_pose"]}
{"id": "C117", "title": "Distance gradients need only the joints between the links", "statement": "In exact arithmetic, the gradient of a squared distance has the entry 0 for every joint that carries both links of the pair or neither of them.", "quantifier": "every loadable robot, every history, every waypoint, every list of joints, every pair of links, with the base in the waypoints or without caching", "why_tests_cant": "It is a statement about all robots and postures; a test sees finitely many, with rounded numbers.", "anchors": ["src/wrapper.cpp:compute_inter_link_squared_dists", "src/kinematics.cpp:get_jacobian"]}
{"id": "C118", "title": "The same pair gets the same distance and gradient", "statement": "Two calls of compute_inter_link_squared_dists on the same model that share a waypoint and a pair of links, in this order or the other, answer the same squared distance and the same gradient row for it, in exact arithmetic, whatever other waypoints and pairs the two calls contain and whichever of them uses the cache (with the base in the waypoints).", "quantifier": "every loadable robot, every history, all lists of waypoints and of pairs of links, every list of joints, for a fixed base without caching (use_cache=False, the default)", "why_tests_cant": "The other waypoints and pairs of the two calls are arbitrary: the claim relates all pairs of calls.", "anchors": ["src/wrapper.cpp:compute_inter_link_squared_dists"]}
{"id": "C119", "title": "Batches of waypoints can be split", "statement": "Calling solve_fk, compute_inter_link_squared_dists or solve_com_fk on a batch of waypoints answers exactly the answers for its first part followed by the answers for the rest, number for number, whether the second call is made on the same model or on the one the first call left behind.", "quantifier": "every loadable robot, every history, every way of cutting a batch in two, every list of joints and links, every rotation type, with or without Jacobians, with the base in the waypoints or (for poses and distances) without caching, in any arithmetic including floating point", "why_tests_cant": "The number of waypoints and where the batch is cut are unbounded, and what one waypoint leaves in the model must not leak into the next.", "anchors": ["src/wrapper.cpp:solve_forward_kinematics, compute_inter_link_squared_dists, solve_com_forward_kinematics"]}
{"id": "C120", "title": "The rotation type only adds rows", "statement": "get_jacobian and solve_fk answer the same first three rows for every rotation type, number for number: asking for roll-pitch-yaw or quaternion rows does not change the positions or the position rows of the Jacobians.", "quantifier": "every loadable robot, every history, every link, every list of joints, every batch of waypoints, every pair of rotation types, with the base in the waypoints or without caching, in any arithmetic including floating point", "why_tests_cant": "It relates two runs with different branches of the code over all robots, postures and batches.", "anchors": ["src/kinematics.cpp:get_jacobian", "src/wrapper.cpp:solve_forward_kinematics"]}
{"id": "C121", "title": "Caching does not change distances", "statement": "compute_inter_link_squared_dists answers the same squared distances and gradients with use_cache=True as with use_cache=False.", "quantifier": "every loadable robot, every history, every batch of waypoints with or without the base, every list of joints and pairs of links, in any arithmetic", "why_tests_cant": "What the cache holds depends on the whole history and on the earlier waypoints of the batch.", "anchors": ["src/wrapper.cpp:compute_inter_link_squared_dists", "python/tinyfk/__init__.py:compute_inter_link_sqdists"]}
{"id": "C122", "title": "The same link gets the same answer in every batch", "statement": "Two calls of solve_fk that share a waypoint and a link answer the same pose row and the same Jacobian block for them, number for number, whatever other waypoints and links the two calls contain, whether the second call is made on the same model or on the one the first call left behind. The same holds for a pair of links in compute_inter_link_squared_dists, and for the centre of mass in solve_com_fk with the base in the waypoints.", "quantifier": "every loadable robot, every history, all batches of waypoints, all lists of links or pairs, every list of joints, every rotation type, with the base in the waypoints or without caching, in any arithmetic including floating point", "why_tests_cant": "The rest of both calls is arbitrary: the claim relates all pairs of calls, and no number computed for one link or waypoint may leak into another's.", "anchors": ["src/wrapper.cpp:solve_forward_kinematics, compute_inter_link_squared_dists, solve_com_forward_kinematics"]}
