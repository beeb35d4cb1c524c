(** Invariants of KinematicModel objects (proof vocabulary). *)
From Coq Require Import String List Arith.
From Verif Require Import Base Num Pose DataStructure Urdf Kin Pf_Data.
Import ListNotations.

Section Inv.
Context `{A : Arith}.

(** number of joints between a link and the root *)
Inductive Depth (ls : list Link) : nat -> nat -> Prop :=
| Depth_root i l : nth_error ls i = Some l -> l_parent l = None -> Depth ls i 0
| Depth_step i l p d : nth_error ls i = Some l -> l_parent l = Some p -> Depth ls p d -> Depth ls i (S d).

(** pose of link [i] by composition along its path to the root *)
Inductive pose_of (ls : list Link) (loc : Joint -> res Pose) (base : Pose) : nat -> Pose -> Prop :=
| pose_of_root i l : nth_error ls i = Some l -> l_parent l = None -> pose_of ls loc base i base
| pose_of_step i l p j t P :
    nth_error ls i = Some l -> l_parent l = Some p -> l_pjoint l = Some j -> loc j = Ok t ->
    pose_of ls loc base p P -> pose_of ls loc base i (pose_transform P t).

Definition PoseOf (m : KM) : nat -> Pose -> Prop := pose_of (links m) (tf_plink_to_hlink m) (base_pose m).

(** the joint above link [i] *)
Definition joint_above_ok (js : list Joint) (i : nat) (j : Joint) : Prop :=
  j_type j = FIXED \/
  (movable (j_type j) = true /\ j_child j = Some i /\ exists k, j_id j = Some k /\ nth_error js k = Some j).

Record WF (m : KM) : Prop := {
  wf_ids : forall i l, nth_error (links m) i = Some l -> l_id l = i;
  wf_root : exists l, nth_error (links m) (root_link_id m) = Some l /\ l_parent l = None;
  wf_only_root : forall i l, nth_error (links m) i = Some l -> l_parent l = None -> i = root_link_id m;
  wf_joint : forall i l p, nth_error (links m) i = Some l -> l_parent l = Some p ->
             exists j, l_pjoint l = Some j /\ joint_above_ok (joints m) i j;
  wf_tree : forall i, i < length (links m) -> exists d, Depth (links m) i d;
  wf_children : forall p l c, nth_error (links m) p = Some l ->
             (In c (l_children l) <-> exists lc, nth_error (links m) c = Some lc /\ l_parent lc = Some p);
  wf_children_nodup : forall p l, nth_error (links m) p = Some l -> NoDup (l_children l);
  wf_link_ids : link_ids m = combine (map l_name (links m)) (seq 0 (length (links m)));
  wf_link_names : NoDup (map l_name (links m));
  wf_joint_ids : joint_ids m = combine (map j_name (joints m)) (seq 0 (length (joints m)));
  wf_joint_names : NoDup (map j_name (joints m));
  wf_angles : length (joint_angles m) = length (joints m);
  wf_num_dof : num_dof m = length (joints m);
  wf_joints : forall k j, nth_error (joints m) k = Some j ->
             movable (j_type j) = true /\ j_id j = Some k /\
             exists c l, j_child j = Some c /\ nth_error (links m) c = Some l /\ l_pjoint l = Some j /\ l_parent l <> None;
  wf_cache : cache_wf (tcache m) /\ cache_size (tcache m) = length (links m);
  wf_com : forall i, In i (com_dummy_links m) -> exists l ine, nth_error (links m) i = Some l /\ l_inertial l = Some ine
}.

(** every cached pose is the pose of its link *)
Definition CacheOK (m : KM) : Prop :=
  forall i P, get_cache i (tcache m) = Ok (Some P) -> PoseOf m i P.

(** the transform stack is large enough for every link *)
Definition StackOK (m : KM) : Prop :=
  forall i d, Depth (links m) i d -> d <= length (stack_data (tstack m)).

End Inv.
