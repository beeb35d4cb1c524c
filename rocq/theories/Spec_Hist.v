(** Histories of calls on a model, and the plain abstract machine they should follow:
    its state is just the joint angles, the base pose and the links added so far. *)
From Coq Require Import QArith String List Arith Bool.
From Verif Require Import Base Num Pose DataStructure Urdf Kin Wrapper Spec_Robot.
Import ListNotations.
Local Open Scope m_scope.

Section Hist.
Context `{A : Arith}.

(** The calls of the C++ class and of its Python wrapper that can change or use the state. *)
Inductive op :=
| Op_set_joint_angles (jids : list nat) (angles : list num)
| Op_set_joint_angle (jid : nat) (a : num)
| Op_set_base_pose (p : Pose)
| Op_set_base_xyzrpy (v : list num)
| Op_set_init_angles
| Op_add_new_link (name : string) (parent : nat) (pos rpy : Vector3)
| Op_clear_cache
| Op_get_link_pose (i : nat)
| Op_get_jacobian (i : nat) (jids : list nat) (rt : RotationType) (with_base : bool)
| Op_get_com
| Op_get_com_jacobian (jids : list nat) (with_base : bool)
| Op_get_total_inertia_matrix
| Op_solve_fk (qs : list (list num)) (elinks jids : list nat) (rt : RotationType) (with_base with_jac use_cache : bool)
| Op_solve_com_fk (qs : list (list num)) (jids actions : list nat) (forces : list num) (with_base with_jac : bool)
| Op_compute_inertia (q : list num) (jids : list nat)
| Op_sqdists (qs : list (list num)) (ids1 ids2 jids : list nat) (with_base with_grads use_cache : bool).

Definition drop {B} (f : M KM B) : M KM unit := f ;;; ret tt.

(** the code *)
Definition exec (o : op) : M KM unit :=
  match o with
  | Op_set_joint_angles jids a => set_joint_angles jids a
  | Op_set_joint_angle j a => set_joint_angle j a
  | Op_set_base_pose p => set_base_pose p
  | Op_set_base_xyzrpy v => w_set_base_pose v
  | Op_set_init_angles => set_init_angles
  | Op_add_new_link n p pos rpy => w_add_new_link n p pos rpy
  | Op_clear_cache => clear_cache
  | Op_get_link_pose i => drop (get_link_pose i)
  | Op_get_jacobian i jids rt wb => drop (get_jacobian i jids rt wb)
  | Op_get_com => drop get_com
  | Op_get_com_jacobian jids wb => drop (get_com_jacobian jids wb)
  | Op_get_total_inertia_matrix => drop get_total_inertia_matrix
  | Op_solve_fk qs el jids rt wb wj uc => drop (solve_forward_kinematics qs el jids rt wb wj uc)
  | Op_solve_com_fk qs jids ac fo wb wj => drop (solve_com_forward_kinematics qs jids ac fo wb wj)
  | Op_compute_inertia q jids => drop (compute_total_inertia_matrix q jids)
  | Op_sqdists qs i1 i2 jids wb wg uc => drop (compute_inter_link_squared_dists qs i1 i2 jids wb wg uc)
  end.

(** Run a history.  Calls that raise are allowed (the caller catches the exception);
    [None]: some call was undefined behaviour or did not return. *)
Fixpoint run (ops : list op) (m : KM) : option KM :=
  match ops with
  | [] => Some m
  | o :: t => match exec o m with
              | (m', Ok _) => run t m'
              | (m', Throw _) => run t m'
              | _ => None
              end
  end.

(** ** The abstract machine *)
Record AState := mkAS { as_added : Added; as_angles : list num; as_base : Pose }.

(** angles after assigning each listed joint, in order *)
Definition assign (jids : list nat) (angles : list num) (v : list num) : list num :=
  fold_left (fun v ja => list_set v (fst ja) (snd ja)) (combine jids angles) v.

Definition pose6 (b : list num) : Pose :=
  mkPose (V3 (nth 0 b n0) (nth 1 b n0) (nth 2 b n0)) (setFromRPY (nth 3 b n0) (nth 4 b n0) (nth 5 b n0)).

(** configuration reached by one waypoint *)
Definition at_waypoint (jids : list nat) (with_base : bool) (q : list num) (s : AState) : AState :=
  mkAS (as_added s) (assign jids q (as_angles s))
       (if with_base then pose6 (skipn (length q - 6) q) else as_base s).

Definition abs_step (doc_names : list string) (o : op) (s : AState) : AState :=
  match o with
  | Op_set_joint_angles jids a => mkAS (as_added s) (assign jids a (as_angles s)) (as_base s)
  | Op_set_joint_angle j a => mkAS (as_added s) (list_set (as_angles s) j a) (as_base s)
  | Op_set_base_pose p => mkAS (as_added s) (as_angles s) p
  | Op_set_base_xyzrpy v => if Nat.eqb (length v) 6 then mkAS (as_added s) (as_angles s) (pose6 v) else s
  | Op_set_init_angles => mkAS (as_added s) (map (fun _ => n0) (as_angles s)) (as_base s)
  | Op_add_new_link n p pos rpy =>
      let names := doc_names ++ map (fun a => fst (fst a)) (as_added s) in
      if existsb (String.eqb n) names then s
      else mkAS (as_added s ++ [(n, nth p names EmptyString, mkPose pos (setFromRPY (vx rpy) (vy rpy) (vz rpy)))])
                (as_angles s) (as_base s)
  | Op_solve_fk qs _ jids _ wb _ _ =>
      match wb, qs with
      | true, q0 :: _ =>
          if (Nat.ltb (length q0) 6 || negb (Nat.eqb (length jids) (length q0 - 6)))%bool then s
          else fold_left (fun s q => at_waypoint jids wb q s) qs s
      | _, _ => fold_left (fun s q => at_waypoint jids wb q s) qs s
      end
  | Op_solve_com_fk qs jids _ _ wb _ => fold_left (fun s q => at_waypoint jids wb q s) qs s
  | Op_compute_inertia q jids => at_waypoint jids false q s
  | Op_sqdists qs _ _ jids wb _ _ => fold_left (fun s q => at_waypoint jids wb q s) qs s
  | _ => s
  end.

Definition abs_run (doc_names : list string) (ops : list op) (s : AState) : AState :=
  fold_left (fun s o => abs_step doc_names o s) ops s.

(** After which histories cached poses are trusted: [true] if every call that moves the
    robot without clearing the cache has been followed by one that clears it. *)
Definition clean_step (o : op) (b : bool) : bool :=
  match o with
  | Op_set_joint_angles _ _ | Op_set_base_pose _ | Op_set_init_angles | Op_clear_cache => true
  | Op_set_base_xyzrpy v => if Nat.eqb (length v) 6 then true else b
  | Op_set_joint_angle _ _ => false
  | Op_compute_inertia _ _ => false
  | Op_solve_com_fk _ _ _ _ wb _ => wb && b
  | Op_solve_fk _ _ _ _ wb _ uc => (wb || negb uc) && b
  | Op_sqdists _ _ _ _ wb _ uc => (wb || negb uc) && b
  | _ => b
  end.
Definition clean (ops : list op) : bool := fold_left (fun b o => clean_step o b) ops true.

End Hist.
