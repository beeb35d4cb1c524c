(** Programs that use the Python class: any sequence of constructor, method, copy and pickle
    calls on any number of instances. *)
From Coq Require Import String List Arith Bool.
From Verif Require Import Base Num Pose DataStructure Urdf Kin Wrapper Py Spec_Robot Spec_Hist Spec_Load.
Import ListNotations.
Local Open Scope m_scope.

Section SpecPy.
Context `{A : Arith}.
Context (tinyxml : string -> option (list xml)).

Inductive call :=
| C_new (text : string)
| C_set_q (i : nat) (jids : list nat) (q : list num) (bt : BaseType)
| C_get_q (i : nat) (jids : list nat) (bt : BaseType)
| C_add_new_link (i : nat) (name : string) (parent : nat) (pos : Vector3) (rpy : option Vector3)
| C_solve_fk (i : nat) (qs : PyQs) (elinks jids : list nat) (rt : RotationType) (bt : BaseType) (with_jac use_cache : bool)
| C_solve_com_fk (i : nat) (qs : PyQs) (jids : list nat) (actions : option (list nat)) (forces : option (list num)) (bt : BaseType) (with_jac : bool)
| C_inertia (i : nat) (q : list num) (jids : list nat)
| C_get_joint_limits (i : nat) (jids : list nat)
| C_sqdists (i : nat) (qs : PyQs) (pairs : list (nat * nat)) (jids : list nat) (bt : BaseType) (with_jac use_cache : bool)
| C_clear_cache (i : nat)
| C_total_mass (i : nat)
| C_copy (i : nat)                (* copy.copy *)
| C_dumps (i : nat)               (* pickle.dumps *)
| C_loads (p : Pickle).           (* pickle.loads, also the second half of copy.deepcopy *)

Definition pdrop {B} (f : M World B) : M World unit := f ;;; ret tt.
Definition py_exec (c : call) : M World unit :=
  match c with
  | C_new t => pdrop (py_init tinyxml t)
  | C_set_q i jids q bt => py_set_q i jids q bt
  | C_get_q i jids bt => pdrop (py_get_q i jids bt)
  | C_add_new_link i n p pos rpy => py_add_new_link i n p pos rpy
  | C_solve_fk i qs el jids rt bt wj uc => pdrop (py_solve_fk i qs el jids rt bt wj uc)
  | C_solve_com_fk i qs jids ac fo bt wj => pdrop (py_solve_com_fk i qs jids ac fo bt wj)
  | C_inertia i q jids => pdrop (py_compute_total_inertia_matrix i q jids)
  | C_get_joint_limits i jids => pdrop (py_get_joint_limits i jids)
  | C_sqdists i qs ps jids bt wj uc => pdrop (py_compute_inter_link_sqdists i qs ps jids bt wj uc)
  | C_clear_cache i => py_clear_cache i
  | C_total_mass i => pdrop (py_total_mass i)
  | C_copy i => pdrop (py_copy tinyxml i)
  | C_dumps i => pdrop (py_dumps i)
  | C_loads p => pdrop (py_loads tinyxml p)
  end.

(** Exceptions are caught by the program; [None]: undefined behaviour, or no return. *)
Fixpoint py_run (cs : list call) (w : World) : option World :=
  match cs with
  | [] => Some w
  | c :: t => match py_exec c w with
              | (w', Ok _) => py_run t w'
              | (w', Throw _) => py_run t w'
              | _ => None
              end
  end.

(** the instance a call is made on *)
Definition target (c : call) : option nat :=
  match c with
  | C_new _ | C_loads _ => None
  | C_set_q i _ _ _ | C_get_q i _ _ | C_add_new_link i _ _ _ _ | C_solve_fk i _ _ _ _ _ _ _ | C_solve_com_fk i _ _ _ _ _ _
  | C_inertia i _ _ | C_get_joint_limits i _ | C_sqdists i _ _ _ _ _ _ | C_clear_cache i | C_total_mass i | C_copy i | C_dumps i => Some i
  end.
Definition on (i : nat) (c : call) : bool := match target c with Some k => Nat.eqb k i | None => false end.

(** calls that edit an instance in a way its pickled form records, or only read it *)
Definition recorded (c : call) : bool :=
  match c with
  | C_set_q _ _ _ _ | C_add_new_link _ _ _ _ _ | C_get_q _ _ _ | C_get_joint_limits _ _ | C_clear_cache _ | C_total_mass _ | C_dumps _ => true
  | _ => false
  end.
(** Programs in which every call on instance [i] is of that kind and succeeds; calls on
    other instances are not restricted. *)
Fixpoint run_recorded (i : nat) (cs : list call) (w : World) : option World :=
  match cs with
  | [] => Some w
  | c :: t =>
      match py_exec c w with
      | (w', Ok _) => if negb (on i c) || recorded c then run_recorded i t w' else None
      | (w', Throw _) => if on i c then None else run_recorded i t w'
      | _ => None
      end
  end.

(** equal in everything a later call can depend on, except what is cached *)
Record same_model (m m' : KM) : Prop := {
  sm_root : root_link_id m' = root_link_id m;
  sm_links : links m' = links m;
  sm_link_ids : link_ids m' = link_ids m;
  sm_joints : joints m' = joints m;
  sm_joint_ids : joint_ids m' = joint_ids m;
  sm_angles : joint_angles m' = joint_angles m;
  sm_base : base_pose m' = base_pose m;
  sm_com : com_dummy_links m' = com_dummy_links m;
  sm_rptable : rptable m' = rptable m;
  sm_dof : num_dof m' = num_dof m;
  sm_mass : total_mass m' = total_mass m;
  sm_stack : tstack m' = tstack m
}.

(** Programs in which every set_q and add_new_link on instance [i] succeeds and [i] is not
    copied with copy.copy; other calls on [i], and calls on other instances, are not
    restricted and may raise. *)
Definition edits (c : call) : bool := match c with C_set_q _ _ _ _ | C_add_new_link _ _ _ _ _ => true | _ => false end.
Definition copies (c : call) : bool := match c with C_copy _ => true | _ => false end.
Fixpoint run_edited (i : nat) (cs : list call) (w : World) : option World :=
  match cs with
  | [] => Some w
  | c :: t =>
      if on i c && copies c then None else
      match py_exec c w with
      | (w', Ok _) => run_edited i t w'
      | (w', Throw _) => if on i c && edits c then None else run_edited i t w'
      | _ => None
      end
  end.

(** equal in everything but the configuration, what is cached and the scratch stack *)
Record same_structure (m m' : KM) : Prop := {
  ss_root : root_link_id m' = root_link_id m;
  ss_links : links m' = links m;
  ss_link_ids : link_ids m' = link_ids m;
  ss_joints : joints m' = joints m;
  ss_joint_ids : joint_ids m' = joint_ids m;
  ss_com : com_dummy_links m' = com_dummy_links m;
  ss_rptable : rptable m' = rptable m;
  ss_dof : num_dof m' = num_dof m;
  ss_mass : total_mass m' = total_mass m
}.

(** what pickle.dumps would write for instance [i] *)
Definition pickled (w : World) (i : nat) : option Pickle :=
  match nth_error (objs w) i with
  | Some o => Some (mkPickle (py_xml o) (nth (py_add o) (heap_add w) []) (nth (py_set o) (heap_set w) []))
  | None => None
  end.

Definition no_objects : World := mkW [] [] [].

(** [o] is instance [i] after the program [cs], and [m] its C++ object *)
Definition instance (cs : list call) (w : World) (i : nat) (o : PyModel) (m : KM) : Prop :=
  py_run cs no_objects = Some w /\ nth_error (objs w) i = Some o /\ py_robot o = Some m.

(** the C++ object of instance [i] *)
Definition robot_of (w : World) (i : nat) : option KM :=
  match nth_error (objs w) i with Some o => py_robot o | None => None end.

(** number of base coordinates in a configuration vector *)
Definition base_size (bt : BaseType) : nat := match bt with BFIXED => 0 | BPLANER => 3 | BFLOATING => 6 end.

(** a planar configuration and the floating one it stands for: x, y, yaw and x, y, 0, 0, 0, yaw *)
Definition planar_of (n : nat) (q q' : list num) : Prop :=
  exists js x y w, length js = n /\ q = js ++ [x; y; w] /\ q' = js ++ [x; y; n0; n0; n0; w].
(** a row of a Jacobian for a floating base and the row without its z, roll and pitch columns *)
Definition planar_columns (n : nat) (row row' : list num) : Prop :=
  exists js x y z r p w, length js = n /\ row = js ++ [x; y; z; r; p; w] /\ row' = js ++ [x; y; w].

(** waypoints in the same form, related row by row *)
Definition planar_args (n : nat) (qs qs' : PyQs) : Prop :=
  match qs, qs' with
  | QsList l, QsList l' => Forall2 (planar_of n) l l'
  | QsArr1 q, QsArr1 q' => planar_of n q q'
  | QsArr2 c l, QsArr2 c' l' => c = n + 3 /\ c' = n + 6 /\ Forall2 (planar_of n) l l'
  | _, _ => False
  end.

(** the waypoints passed; a two-dimensional array knows the common length of its rows *)
Definition waypoints (qs : PyQs) : list (list num) := match qs with QsList l => l | QsArr1 q => [q] | QsArr2 _ l => l end.
Definition well_formed (qs : PyQs) : Prop := match qs with QsArr2 c l => forall q, In q l -> length q = c | _ => True end.

End SpecPy.
