(** Several KinematicModel objects in one program: links are heap objects that models and
    other links point to (urdf_model/link.h, joint.h; include/tinyfk.hpp).

    Kin.v describes one model whose links belong to it alone.  Here a model holds addresses
    ([links_] is a std::vector<LinkSharedPtr>), child_links are owning pointers, parent_link_
    and Joint::child_link_ are std::weak_ptr, the implicit copy constructor of KinematicModel
    copies pointers and not links, and a link is freed when its last owner goes away.

    Simplifications: joints are not changed after the constructor and own no links, so they
    are stored by value, as are inertial objects (changed only by the constructor that created
    them); the pointer returned by add_new_link is dropped by the caller; objects created by a
    constructor that throws are gone afterwards. *)
From Coq Require Import QArith String Ascii List Arith Bool.
From Verif Require Import Base Num Pose DataStructure Urdf Kin.
Import ListNotations.
Local Open Scope num_scope.
Local Open Scope m_scope.

(** addresses of link objects *)
Notation addr := nat (only parsing).

Section Heap.
Context `{A : Arith}.

(** link objects by address; [None]: freed.  In a [Link] of the heap, [l_parent], [l_children]
    and [j_child] are addresses. *)
Definition Heap := list (option Link).

(** tinyfk.hpp:55-75.  [hlinks] is links_; [hk] has the other members: its field [links] is
    unused, and its [com_dummy_links] and the [j_child] of its joints are addresses *)
Record HM := mkHM { hk : KM; hlinks : list addr }.

(** *p for an owning pointer *)
Definition obj (hp : Heap) (a : addr) : res Link :=
  match nth_error hp a with Some (Some l) => Ok l | _ => UB NullDeref end.

(** link.h:220 and joint.h:258-259: weak_ptr::lock is null when the object has been freed *)
Definition lock (hp : Heap) (w : option addr) : option addr :=
  match w with
  | None => None
  | Some a => match nth_error hp a with Some (Some _) => Some a | _ => None end
  end.

(** methods that use no link *)
Definition onk {B} (f : M KM B) : M HM B :=
  fun h => let (k, r) := f (hk h) in (mkHM k (hlinks h), r).

(* ---- forward kinematics ---- *)

(** kinematics.cpp:54-88 *)
Fixpoint h_walk_up (fuel : nat) (hp : Heap) (k : KM) (hlink : addr) (stk : SizedStack (nat * Pose))
  : res (SizedStack (nat * Pose) * Pose) :=
  match fuel with
  | O => Diverge
  | S fuel' =>
      let? h := obj hp hlink in
      match lock hp (l_parent h) with
      | None => Ok (stk, base_pose k)
      | Some p =>
          let? c := get_cache (l_id h) (tcache k) in
          match c with
          | Some tf => Ok (stk, tf)
          | None =>
              let? pj := deref (l_pjoint h) in
              let? tf := tf_plink_to_hlink k pj in
              let? stk' := stack_push (l_id h, tf) stk in
              h_walk_up fuel' hp k p stk'
          end
      end
  end.

(** kinematics.cpp:47-103, get_link_pose_inner *)
Definition h_get_link_pose_inner (hp : Heap) (link_id : nat) : M HM Pose :=
  fun h =>
    let k := hk h in
    let stk := stack_reset (tstack k) in
    match (let? a := vget (hlinks h) link_id in h_walk_up (S (List.length (stack_data stk))) hp k a stk) with
    | Ok (stk', tf) =>
        match unwind (stack_size stk') stk' (tcache k) tf with
        | Ok (stk'', c, tf') => (mkHM (set_scratch stk'' c k) (hlinks h), Ok tf')
        | Throw e => (h, Throw e) | UB u => (h, UB u) | Diverge => (h, Diverge)
        end
    | Throw e => (h, Throw e) | UB u => (h, UB u) | Diverge => (h, Diverge)
    end.

(** kinematics.cpp:37-45, get_link_pose *)
Definition h_get_link_pose (hp : Heap) (link_id : nat) : M HM Pose :=
  h <- get ;;
  c <- lift (get_cache link_id (tcache (hk h))) ;;
  match c with
  | Some p => ret p
  | None => h_get_link_pose_inner hp link_id
  end.

(* ---- Jacobians ---- *)

(** kinematics.cpp:131-180 *)
Definition h_jacobian_joint (hp : Heap) (rt : RotationType) (elink_id : nat) (epos erpy : Vector3)
           (erot_inverse : Rotation) (i jid : nat) (J : mat) : M HM mat :=
  h <- get ;;
  b <- lift (isRelevant (rptable (hk h)) elink_id jid) ;;
  if b : bool then
    hjoint <- lift (vget (joints (hk h)) jid) ;;
    c <- lift (deref (lock hp (j_child hjoint))) ;;
    clink <- lift (obj hp c) ;;
    tf <- h_get_link_pose hp (l_id clink) ;;
    lift (mat_set_col 0 i (joint_column rt hjoint epos erpy erot_inverse tf) J)
  else ret J.

(** kinematics.cpp:182-233 *)
Definition h_jacobian_base (hp : Heap) (rt : RotationType) (n : nat) (tf_r_e : Pose) (erpy : Vector3) (J : mat) : M HM mat :=
  h <- get ;;
  tf_r_b <- h_get_link_pose hp (root_link_id (hk h)) ;;
  let tf_b_r := pose_inverse tf_r_b in
  let rpy_b := getRPY (rotation tf_r_b) in
  let tf_b_e := pose_transform tf_b_r tf_r_e in
  lift (let? J1 := mat_set 0 (n + 0) n1 J in
        let? J2 := mat_set 1 (n + 1) n1 J1 in
        let? J3 := mat_set 2 (n + 2) n1 J2 in
        rfor [0; 1; 2]%nat J3 (fun k J' =>
          mat_set_col 0 (n + 3 + k) (base_column rt k tf_r_b tf_b_e tf_r_e rpy_b erpy) J')).

(** kinematics.cpp:105-235, get_jacobian *)
Definition h_get_jacobian (hp : Heap) (elink_id : nat) (jids : list nat) (rt : RotationType) (with_base : bool) : M HM mat :=
  let n := List.length jids in
  let dim_dof := (n + if with_base then 6 else 0)%nat in
  tf_r_e <- h_get_link_pose hp elink_id ;;
  let epos := position tf_r_e in
  let erpy := match rt with RPY => getRPY (rotation tf_r_e) | _ => v_clear end in
  let erot_inverse := match rt with XYZW => q_inverse (rotation tf_r_e) | _ => q_clear end in
  J <- for_each (combine (seq 0 n) jids) (mat_zero (dim_jacobi rt) dim_dof)
         (fun ij J => h_jacobian_joint hp rt elink_id epos erpy erot_inverse (fst ij) (snd ij) J) ;;
  if with_base then h_jacobian_base hp rt n tf_r_e erpy J else ret J.

(* ---- centre of mass and inertia ---- *)

(** kinematics.cpp:237-253, get_com *)
Definition h_get_com (hp : Heap) : M HM Vector3 :=
  h <- get ;;
  r <- for_each (com_dummy_links (hk h)) (v_clear, n0) (fun a acc =>
         let '(com, mass_total) := acc in
         lk <- lift (obj hp a) ;;
         ine <- lift (deref (l_inertial lk)) ;;
         tf <- h_get_link_pose hp (l_id lk) ;;
         ret (V3 (vx com + in_mass ine * vx (position tf))
                 (vy com + in_mass ine * vy (position tf))
                 (vz com + in_mass ine * vz (position tf)),
              mass_total + in_mass ine)) ;;
  let '(com, mass_total) := r in
  ret (V3 (vx com / mass_total) (vy com / mass_total) (vz com / mass_total)).

(** kinematics.cpp:255-270, get_com_jacobian *)
Definition h_get_com_jacobian (hp : Heap) (jids : list nat) (with_base : bool) : M HM mat :=
  let dim_dof := (List.length jids + if with_base then 6 else 0)%nat in
  h <- get ;;
  r <- for_each (com_dummy_links (hk h)) (mat_zero 3 dim_dof, n0) (fun a acc =>
         let '(J, mass_total) := acc in
         lk <- lift (obj hp a) ;;
         ine <- lift (deref (l_inertial lk)) ;;
         jac <- h_get_jacobian hp (l_id lk) jids IGNORE with_base ;;
         ret (mat_zip add J (mat_map (mul (in_mass ine)) jac), mass_total + in_mass ine)) ;;
  let '(J, mass_total) := r in
  ret (mat_map (fun x => x / mass_total) J).

(** kinematics.cpp:272-317, get_total_inertia_matrix *)
Definition h_get_total_inertia_matrix (hp : Heap) : M HM mat :=
  com <- h_get_com hp ;;
  h <- get ;;
  for_each (com_dummy_links (hk h)) (mat_zero 3 3) (fun a acc =>
    lk <- lift (obj hp a) ;;
    match l_inertial lk with
    | None => ret acc
    | Some ine =>
        tf <- h_get_link_pose hp (l_id lk) ;;
        let v := v_sub (position tf) com in
        let R := rot_mat (rotation tf) in
        ret (mat_zip add acc
               (mat_zip add (mat3_mul (mat3_mul R (inertia_mat ine)) (transpose3 R))
                            (trans_term (in_mass ine) v)))
    end).

(** tinyfk.hpp:123-129, get_link_names *)
Definition h_get_link_names (hp : Heap) : M HM (list string) :=
  h <- get ;; lift (rfor (hlinks h) [] (fun a acc => let? l := obj hp a in Ok (acc ++ [l_name l]))).

(* ---- adding links ---- *)

(** tinyfk.cpp:273-280: the traversal follows the child_links of the objects *)
Definition h_rp_step (hp : Heap) (joint_id : nat) (s : list addr * list (list bool))
  : (list addr * list (list bool)) + res (list (list bool)) :=
  match fst s with
  | [] => inr (Ok (snd s))
  | a :: rest =>
      match obj hp a with
      | Ok l =>
          match table_set (l_id l) joint_id (snd s) with
          | Ok t' => inl (rev (l_children l) ++ rest, t')
          | Throw e => inr (Throw e) | UB u => inr (UB u) | Diverge => inr Diverge
          end
      | Throw e => inr (Throw e) | UB u => inr (UB u) | Diverge => inr Diverge
      end
  end.

Definition heap_edges (hp : Heap) : nat :=
  list_sum (map (fun c => match c with Some l => List.length (l_children l) | None => O end) hp).

(** tinyfk.cpp:268-281; the number of turns is bounded as in Kin.v *)
Definition h_rp_joint (hp : Heap) (joint_id : nat) (clink : addr) (t : list (list bool)) : res (list (list bool)) :=
  match loop2 (S (heap_edges hp)) (h_rp_step hp joint_id) ([clink], t) with
  | inr r => r
  | inl _ => Diverge
  end.

(** tinyfk.cpp:260-283, update_rptable *)
Definition h_update_rptable (hp : Heap) : M HM unit :=
  h <- get ;;
  let k := hk h in
  t <- lift (rfor (joints k) (repeat (repeat false (List.length (joint_ids k))) (List.length (link_ids k)))
         (fun j t =>
            let? jid := match assoc (j_name j) (joint_ids k) with Some i => Ok i | None => Throw OutOfRange end in
            let? c := deref (lock hp (j_child j)) in
            h_rp_joint hp jid c t)) ;;
  put (mkHM (set_rptable t k) (hlinks h)).

Definition HS : Type := Heap * HM.
Definition reading {B} (f : Heap -> M HM B) : M HS B :=
  fun s => let (h, r) := f (fst s) (snd s) in ((fst s, h), r).

(** tinyfk.cpp:229-258, add_new_link(name, parent_id, pose): a new object, and a pointer to it
    in links_ and in the child_links of its parent *)
Definition h_add_new_link_pose (name : string) (parent_id : nat) (pose : Pose) : M HS nat :=
  s <- get ;;
  let hp := fst s in let h := snd s in let k := hk h in
  match assoc name (link_ids k) with
  | Some _ => throw InvalidArgument
  | None =>
      let link_id := List.length (hlinks h) in
      pa <- lift (vget (hlinks h) parent_id) ;;
      let a := List.length hp in
      let hp1 := hp ++ [Some (mkLink name link_id None (Some pa) (Some (fixed_joint pose)) [])] in
      let as' := hlinks h ++ [a] in
      pa' <- lift (vget as' parent_id) ;;
      p <- lift (obj hp1 pa') ;;
      let hp2 := list_set hp1 pa' (Some (push_child a p)) in
      put (hp2, mkHM (set_tcache (cache_extend pose_clear (tcache k)) (set_links [] (ids_insert name link_id (link_ids k)) k)) as') ;;;
      reading h_update_rptable ;;;
      ret link_id
  end.

(** tinyfk.cpp:217-227, add_new_link(name, parent_id, position, rpy) *)
Definition h_add_new_link (name : string) (parent_id : nat) (pos rpy : Vector3) : M HS nat :=
  h_add_new_link_pose name parent_id (mkPose pos (setFromRPY (vx rpy) (vy rpy) (vz rpy))).

(* ---- constructor ---- *)

(** pointers of a model whose links are placed at [b], [b]+1, ... *)
Definition move_joint (b : addr) (j : Joint) : Joint :=
  mkJoint (j_name j) (j_type j) (j_axis j) (j_origin j) (j_limits j) (j_id j) (option_map (Nat.add b) (j_child j)).
Definition move_link (b : addr) (l : Link) : Link :=
  mkLink (l_name l) (l_id l) (l_inertial l) (option_map (Nat.add b) (l_parent l))
         (option_map (move_joint b) (l_pjoint l)) (map (Nat.add b) (l_children l)).

(** tinyfk.cpp:20-86: the links made by the parser and initTree are new objects *)
Definition h_members (hp : Heap) (m : KM) : HS :=
  let b := List.length hp in
  (hp ++ map (fun l => Some (move_link b l)) (links m),
   mkHM (mkKM (root_link_id m) [] (link_ids m) (map (Nat.add b) (com_dummy_links m)) (map (move_joint b) (joints m))
              (joint_ids m) (joint_angles m) (base_pose m) (rptable m) (num_dof m) (total_mass m) (tstack m) (tcache m))
        (seq b (List.length (links m)))).

(** tinyfk.cpp:93-109.  The loop runs over the local vector of the parsed links, which are
    the first links of links_. *)
Definition h_add_com_link (i : nat) (acc : list addr) : M HS (list addr) :=
  s <- get ;;
  a <- lift (vget (hlinks (snd s)) i) ;;
  lk <- lift (obj (fst s) a) ;;
  match l_inertial lk with
  | None => ret acc
  | Some ine =>
      nid <- h_add_new_link_pose (l_name lk ++ "_com")%string (l_id lk)
               (mkPose (V3 (vx (position (in_origin ine))) (vy (position (in_origin ine)))
                           (vz (position (in_origin ine)))) q_clear) ;;
      s <- get ;;
      na <- lift (vget (hlinks (snd s)) nid) ;;
      nl <- lift (obj (fst s) na) ;;
      lk' <- lift (obj (fst s) a) ;;
      put (list_set (list_set (fst s) na (Some (set_inertial (Some (reset_origin ine)) nl)))
                    a (Some (set_inertial (Some (reset_origin ine)) lk')), snd s) ;;;
      ret (acc ++ [na])
  end.

(** tinyfk.cpp:16-114, the constructor *)
Definition h_ctor (tinyxml : string -> option (list xml)) (xml_string : string) (hp : Heap) : Heap * res HM :=
  match xml_string with
  | EmptyString => (hp, Throw RuntimeError)
  | _ =>
      match parseURDF_dom (tinyxml xml_string) with
      | None => (hp, UB NullDeref)
      | Some mi =>
          if negb (forallb (fun kj => supported (uj_type (snd kj))) (mi_joints mi)) then (hp, Throw InvalidArgument) else
          match (ids <- for_each (seq 0 (List.length (links (ctor_members mi)))) [] h_add_com_link ;;
                 s <- get ;;
                 put (fst s, mkHM (set_com_links ids (hk (snd s))) (hlinks (snd s))) ;;;
                 reading (fun _ => onk (set_base_pose pose_clear))) (h_members hp (ctor_members mi)) with
          | ((hp', h), Ok _) => (hp', Ok h)
          | (_, Throw e) => (hp, Throw e) | (_, UB u) => (hp, UB u) | (_, Diverge) => (hp, Diverge)
          end
      end
  end.

(* ---- lifetime ---- *)

(** a link has an owner: an element of links_ of a model, or of child_links of a link.
    (com_dummy_links_ and robot_urdf_interface_ only have links that are in links_.) *)
Definition owned (ms : list (option HM)) (hp : Heap) (a : addr) : bool :=
  existsb (fun s => match s with Some h => existsb (Nat.eqb a) (hlinks h) | None => false end) ms ||
  existsb (fun c => match c with Some l => existsb (Nat.eqb a) (l_children l) | None => false end) hp.

Definition enum_heap (hp : Heap) : list (addr * option Link) := combine (seq 0 (List.length hp)) hp.

(** free every link that has no owner; freeing a link drops its child_links *)
Definition sweep_once (ms : list (option HM)) (hp : Heap) : Heap :=
  map (fun ac => if owned ms hp (fst ac) then snd ac else None) (enum_heap hp).
Fixpoint sweep (n : nat) (ms : list (option HM)) (hp : Heap) : Heap :=
  match n with O => hp | S n' => sweep n' ms (sweep_once ms hp) end.

(* ---- programs ---- *)

(** the public methods of KinematicModel *)
Inductive call :=
| C_set_joint_angles (jids : list nat) (angles : list num)
| C_set_joint_angles_nc (jids : list nat) (angles : list num)      (* _set_joint_angles *)
| C_set_joint_angle (jid : nat) (a : num)
| C_set_base_pose (p : Pose)
| C_set_base_pose_nc (p : Pose)                                    (* _set_base_pose *)
| C_clear_cache
| C_set_init_angles
| C_get_joint_angles (jids : list nat)
| C_get_joint_ids (names : list string)
| C_get_joint_names
| C_get_position_limits (jids : list nat)
| C_get_velocity_limits (jids : list nat)
| C_get_effort_limits (jids : list nat)
| C_get_link_ids (names : list string)
| C_get_link_names
| C_get_link_pose (link_id : nat)
| C_get_jacobian (link_id : nat) (jids : list nat) (rt : RotationType) (with_base : bool)
| C_get_com
| C_get_com_jacobian (jids : list nat) (with_base : bool)
| C_get_total_inertia_matrix
| C_add_new_link (name : string) (parent_id : nat) (pos rpy : Vector3)
| C_add_new_link_pose (name : string) (parent_id : nat) (pose : Pose).

Inductive reply :=
| R_done | R_nums (l : list num) | R_ids (l : list nat) | R_names (l : list string)
| R_bounds (l : list (ext * ext)) | R_pose (p : Pose) | R_mat (J : mat) | R_vec (v : Vector3) | R_link (id : nat).

Definition giving {S B} (f : B -> reply) (x : M S B) : M S reply := b <- x ;; ret (f b).

(** tinyfk.cpp:130, _set_base_pose *)
Definition set_base_pose_nc (p : Pose) : M KM unit := m <- get ;; put (set_base p m).

Definition h_call (c : call) : M HS reply :=
  match c with
  | C_set_joint_angles jids a => giving (fun _ => R_done) (reading (fun _ => onk (set_joint_angles jids a)))
  | C_set_joint_angles_nc jids a => giving (fun _ => R_done) (reading (fun _ => onk (set_joint_angles_nc jids a)))
  | C_set_joint_angle j a => giving (fun _ => R_done) (reading (fun _ => onk (set_joint_angle j a)))
  | C_set_base_pose p => giving (fun _ => R_done) (reading (fun _ => onk (set_base_pose p)))
  | C_set_base_pose_nc p => giving (fun _ => R_done) (reading (fun _ => onk (set_base_pose_nc p)))
  | C_clear_cache => giving (fun _ => R_done) (reading (fun _ => onk clear_cache))
  | C_set_init_angles => giving (fun _ => R_done) (reading (fun _ => onk set_init_angles))
  | C_get_joint_angles jids => giving R_nums (reading (fun _ => onk (get_joint_angles jids)))
  | C_get_joint_ids ns => giving R_ids (reading (fun _ => onk (get_joint_ids ns)))
  | C_get_joint_names => giving R_names (reading (fun _ => onk (m <- get ;; ret (get_joint_names m))))
  | C_get_position_limits jids => giving R_bounds (reading (fun _ => onk (get_joint_position_limits jids)))
  | C_get_velocity_limits jids => giving R_nums (reading (fun _ => onk (get_joint_velocity_limits jids)))
  | C_get_effort_limits jids => giving R_nums (reading (fun _ => onk (get_joint_effort_limits jids)))
  | C_get_link_ids ns => giving R_ids (reading (fun _ => onk (get_link_ids ns)))
  | C_get_link_names => giving R_names (reading h_get_link_names)
  | C_get_link_pose i => giving R_pose (reading (fun hp => h_get_link_pose hp i))
  | C_get_jacobian i jids rt wb => giving R_mat (reading (fun hp => h_get_jacobian hp i jids rt wb))
  | C_get_com => giving R_vec (reading h_get_com)
  | C_get_com_jacobian jids wb => giving R_mat (reading (fun hp => h_get_com_jacobian hp jids wb))
  | C_get_total_inertia_matrix => giving R_mat (reading h_get_total_inertia_matrix)
  | C_add_new_link n p pos rpy => giving R_link (h_add_new_link n p pos rpy)
  | C_add_new_link_pose n p pose => giving R_link (h_add_new_link_pose n p pose)
  end.

(** What a program does with its models.  Models are numbered in the order of the E_new and
    E_copy events; an event on a number that has no model (yet, or any more) does nothing. *)
Inductive event :=
| E_new (text : string)          (* KinematicModel m(text); *)
| E_copy (i : nat)               (* KinematicModel m(mi);  -- the implicit copy constructor *)
| E_delete (i : nat)             (* the end of the life of mi *)
| E_call (i : nat) (c : call).   (* mi.method(...) *)

Record world := mkW { w_heap : Heap; w_models : list (option HM) }.

Definition model_at {B} (ms : list (option B)) (i : nat) : option B :=
  match nth_error ms i with Some (Some h) => Some h | _ => None end.

Definition h_step (tinyxml : string -> option (list xml)) (e : event) (w : world) : world * res reply :=
  match e with
  | E_new text =>
      match h_ctor tinyxml text (w_heap w) with
      | (hp, Ok h) => (mkW hp (w_models w ++ [Some h]), Ok R_done)
      | (hp, Throw x) => (mkW hp (w_models w ++ [None]), Throw x)
      | (hp, UB u) => (mkW hp (w_models w ++ [None]), UB u)
      | (hp, Diverge) => (mkW hp (w_models w ++ [None]), Diverge)
      end
  | E_copy i => (mkW (w_heap w) (w_models w ++ [model_at (w_models w) i]), Ok R_done)
  | E_delete i =>
      let ms := list_set (w_models w) i None in
      (mkW (sweep (List.length (w_heap w)) ms (w_heap w)) ms, Ok R_done)
  | E_call i c =>
      match model_at (w_models w) i with
      | None => (w, Ok R_done)
      | Some h => let '((hp, h'), r) := h_call c (w_heap w, h) in
                  (mkW hp (list_set (w_models w) i (Some h')), r)
      end
  end.

(** The replies of a program, and the state in which it ends; it stops after undefined
    behaviour and at a call that does not return. *)
Fixpoint h_run (tinyxml : string -> option (list xml)) (es : list event) (w : world) : world * list (res reply) :=
  match es with
  | [] => (w, [])
  | e :: t =>
      let (w', r) := h_step tinyxml e w in
      match r with
      | Ok _ | Throw _ => let (w'', rs) := h_run tinyxml t w' in (w'', r :: rs)
      | _ => (w', [r])
      end
  end.

Definition empty_world : world := mkW [] [].

End Heap.
