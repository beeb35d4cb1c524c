(** Programs with several models, if every model had its own links: what their calls should
    answer; and which copies may add links. *)
From Coq Require Import QArith String List Arith Bool.
From Verif Require Import Base Num Pose DataStructure Urdf Kin Heap.
Import ListNotations.
Local Open Scope m_scope.

Section Heap.
Context `{A : Arith}.

(** one call on one model *)
Definition call_alone (c : call) : M KM reply :=
  match c with
  | C_set_joint_angles jids a => giving (fun _ => R_done) (set_joint_angles jids a)
  | C_set_joint_angles_nc jids a => giving (fun _ => R_done) (set_joint_angles_nc jids a)
  | C_set_joint_angle j a => giving (fun _ => R_done) (set_joint_angle j a)
  | C_set_base_pose p => giving (fun _ => R_done) (set_base_pose p)
  | C_set_base_pose_nc p => giving (fun _ => R_done) (set_base_pose_nc p)
  | C_clear_cache => giving (fun _ => R_done) clear_cache
  | C_set_init_angles => giving (fun _ => R_done) set_init_angles
  | C_get_joint_angles jids => giving R_nums (get_joint_angles jids)
  | C_get_joint_ids ns => giving R_ids (get_joint_ids ns)
  | C_get_joint_names => giving R_names (m <- get ;; ret (get_joint_names m))
  | C_get_position_limits jids => giving R_bounds (get_joint_position_limits jids)
  | C_get_velocity_limits jids => giving R_nums (get_joint_velocity_limits jids)
  | C_get_effort_limits jids => giving R_nums (get_joint_effort_limits jids)
  | C_get_link_ids ns => giving R_ids (get_link_ids ns)
  | C_get_link_names => giving R_names (m <- get ;; ret (get_link_names m))
  | C_get_link_pose i => giving R_pose (get_link_pose i)
  | C_get_jacobian i jids rt wb => giving R_mat (get_jacobian i jids rt wb)
  | C_get_com => giving R_vec get_com
  | C_get_com_jacobian jids wb => giving R_mat (get_com_jacobian jids wb)
  | C_get_total_inertia_matrix => giving R_mat get_total_inertia_matrix
  | C_add_new_link n p pos rpy => giving R_link (add_new_link n p pos rpy)
  | C_add_new_link_pose n p pose => giving R_link (add_new_link_pose n p pose)
  end.

(** models as values: a copy has its own links, and deleting a model concerns no other *)
Definition step_alone (tinyxml : string -> option (list xml)) (e : event) (ms : list (option KM)) : list (option KM) * res reply :=
  match e with
  | E_new text =>
      match ctor tinyxml text with
      | Ok m => (ms ++ [Some m], Ok R_done)
      | Throw x => (ms ++ [None], Throw x) | UB u => (ms ++ [None], UB u) | Diverge => (ms ++ [None], Diverge)
      end
  | E_copy i => (ms ++ [model_at ms i], Ok R_done)
  | E_delete i => (list_set ms i None, Ok R_done)
  | E_call i c =>
      match model_at ms i with
      | None => (ms, Ok R_done)
      | Some m => let (m', r) := call_alone c m in (list_set ms i (Some m'), r)
      end
  end.

Fixpoint run_alone (tinyxml : string -> option (list xml)) (es : list event) (ms : list (option KM)) : list (option KM) * list (res reply) :=
  match es with
  | [] => (ms, [])
  | e :: t =>
      let (ms', r) := step_alone tinyxml e ms in
      match r with
      | Ok _ | Throw _ => let (ms'', rs) := run_alone tinyxml t ms' in (ms'', r :: rs)
      | _ => (ms', [r])
      end
  end.

Definition copies (e : event) : bool := match e with E_copy _ => true | _ => false end.
Definition adds (c : call) : bool := match c with C_add_new_link _ _ _ _ | C_add_new_link_pose _ _ _ => true | _ => false end.

(** Models are related if they are copies (of copies ...) of the same one.  A model may add a
    link unless a related model has added one that it does not have.  For every model: the
    number of the model it descends from, and whether it may add links. *)
Definition outdate (i f : nat) (tags : list (nat * bool)) : list (nat * bool) :=
  map (fun kt => (fst (snd kt), snd (snd kt) && (negb (Nat.eqb (fst (snd kt)) f) || Nat.eqb (fst kt) i)))
      (combine (seq 0 (length tags)) tags).

Fixpoint one_adds (tags : list (nat * bool)) (es : list event) : bool :=
  match es with
  | [] => true
  | E_new _ :: t => one_adds (tags ++ [(length tags, true)]) t
  | E_copy i :: t => one_adds (tags ++ [nth i tags (length tags, true)]) t
  | E_delete _ :: t => one_adds tags t
  | E_call i c :: t =>
      if adds c then
        match nth_error tags i with
        | None => one_adds tags t
        | Some (f, ok) => ok && one_adds (outdate i f tags) t
        end
      else one_adds tags t
  end.

(** in the heap, [b] can be reached from [a] by following child_links *)
Inductive reach (hp : Heap) (a : addr) : addr -> Prop :=
| reach_here : reach hp a a
| reach_child b l c : reach hp a b -> nth_error hp b = Some (Some l) -> In c (l_children l) -> reach hp a c.

(** a link that has not been freed *)
Definition alive (w : world) (a : addr) : Prop := exists l, nth_error (w_heap w) a = Some (Some l).
(** a link that some existing model holds, or a link below such a link *)
Definition in_use (w : world) (a : addr) : Prop :=
  exists i h b, nth_error (w_models w) i = Some (Some h) /\ In b (hlinks h) /\ reach (w_heap w) b a.

(** the links a model points to: links_, com_dummy_links_, the child of a joint, the parent of a
    link of links_, and the child_links of any link it points to *)
Inductive points_to (w : world) (h : HM) : addr -> Prop :=
| pt_link a : In a (hlinks h) -> points_to w h a
| pt_com a : In a (com_dummy_links (hk h)) -> points_to w h a
| pt_joint j a : In j (joints (hk h)) -> j_child j = Some a -> points_to w h a
| pt_parent b l a : In b (hlinks h) -> nth_error (w_heap w) b = Some (Some l) -> l_parent l = Some a -> points_to w h a
| pt_child b l a : points_to w h b -> nth_error (w_heap w) b = Some (Some l) -> In a (l_children l) -> points_to w h a.

End Heap.
