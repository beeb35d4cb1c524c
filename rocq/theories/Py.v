(** Model of python/tinyfk/__init__.py: class KinematicModel.

    The recorded histories are Python lists, i.e. shared mutable objects: they live
    in a heap and objects hold references to them.  Numpy arrays are lists of rows;
    arguments are values here, the caller's arrays and lists are added in PyRef.v. *)
From Coq Require Import QArith String List Arith.
From Verif Require Import Base Num Pose DataStructure Urdf Kin Wrapper.
Import ListNotations.
Local Open Scope num_scope.
Local Open Scope m_scope.

Section Py.
Context `{A : Arith}.
Context (tinyxml : string -> option (list xml)).

(** __init__.py:29-32, BaseType *)
Inductive BaseType := BFIXED | BPLANER | BFLOATING.

(** __init__.py:226: [link_name, parent_id, position, rpy] *)
Record AddArgs := mkAdd { a_name : string; a_parent : nat; a_pos : Vector3; a_rpy : option Vector3 }.
(** __init__.py:80: [joint_ids, q, base_type] *)
Record SetArgs := mkSet { s_jids : list nat; s_q : list num; s_base : BaseType }.

(** __init__.py:42-56: attributes of an instance; histories by reference.  [None]
    for _robot while it is being restored. *)
Record PyModel := mkPy { py_xml : string; py_robot : option KM; py_add : nat; py_set : nat }.

(** All Python objects: add-link histories, set_q histories, model instances. *)
Record World := mkW { heap_add : list (list AddArgs); heap_set : list (list SetArgs); objs : list PyModel }.

Definition w_put_obj (i : nat) (o : PyModel) (w : World) : World :=
  mkW (heap_add w) (heap_set w) (list_set (objs w) i o).

(** run a method of the wrapped C++ object of instance i *)
Definition with_robot {B} (i : nat) (f : M KM B) : M World B :=
  fun w => match nth_error (objs w) i with
           | None => (w, UB OutOfBounds)
           | Some o => match py_robot o with
                       | None => (w, Throw TypeError)
                       | Some r => let (r', x) := f r in
                                   (w_put_obj i (mkPy (py_xml o) (Some r') (py_add o) (py_set o)) w, x)
                       end
           end.

Definition hist_append {B} (l : list (list B)) (r : nat) (a : B) : list (list B) :=
  match nth_error l r with Some h => list_set l r (h ++ [a]) | None => l end.

(** __init__.py:81: self._set_joint_angles_history.append(args) *)
Definition append_set (i : nat) (a : SetArgs) : M World unit :=
  fun w => match nth_error (objs w) i with
           | None => (w, UB OutOfBounds)
           | Some o => (mkW (heap_add w) (hist_append (heap_set w) (py_set o) a) (objs w), Ok tt)
           end.
(** __init__.py:227: self._add_new_link_history.append(args) *)
Definition append_add (i : nat) (a : AddArgs) : M World unit :=
  fun w => match nth_error (objs w) i with
           | None => (w, UB OutOfBounds)
           | Some o => (mkW (hist_append (heap_add w) (py_add o) a) (heap_set w) (objs w), Ok tt)
           end.

Definition assert_ {S} (b : bool) : M S unit := if b then ret tt else throw AssertionError.

(** v[:-k] and v[-k:] *)
Definition drop_last (k : nat) (v : list num) : list num := firstn (List.length v - k) v.
Definition last_k (k : nat) (v : list num) : list num := skipn (List.length v - k) v.

(** __init__.py:47-56, __init__ with xml_text given: a new instance with fresh
    histories; returns its index.  An empty text makes line 50 call open(None), which
    raises.  urdfpath: [py_new] in Import.v. *)
Definition py_init (xml_text : string) : M World nat :=
  fun w => if String.eqb xml_text EmptyString then (w, Throw TypeError) else
           match ctor tinyxml xml_text with
           | Ok r => (mkW (heap_add w ++ [[]]) (heap_set w ++ [[]])
                          (objs w ++ [mkPy xml_text (Some r) (List.length (heap_add w)) (List.length (heap_set w))]),
                      Ok (List.length (objs w)))
           | Throw e => (w, Throw e) | UB u => (w, UB u) | Diverge => (w, Diverge)
           end.

(** __init__.py:77-96, set_q *)
Definition py_set_q (i : nat) (jids : list nat) (q : list num) (bt : BaseType) : M World unit :=
  append_set i (mkSet jids q bt) ;;;
  match bt with
  | BPLANER =>
      assert_ (Nat.eqb (List.length q) (List.length jids + 3)) ;;;
      let b := last_k 3 q in
      with_robot i (set_joint_angles jids (drop_last 3 q)) ;;;
      with_robot i (w_set_base_pose [nth 0 b n0; nth 1 b n0; n0; n0; n0; nth 2 b n0])
  | BFLOATING =>
      assert_ (Nat.eqb (List.length q) (List.length jids + 6)) ;;;
      with_robot i (set_joint_angles jids (drop_last 6 q)) ;;;
      with_robot i (w_set_base_pose (last_k 6 q))
  | BFIXED =>
      assert_ (Nat.eqb (List.length q) (List.length jids)) ;;;
      with_robot i (set_joint_angles jids q)
  end.

(** __init__.py:62-75, get_q *)
Definition py_get_q (i : nat) (jids : list nat) (bt : BaseType) : M World (list num) :=
  b <- match bt with
       | BFIXED => ret []
       | BPLANER => v <- with_robot i w_get_base_pose ;; ret [nth 0 v n0; nth 1 v n0; last v n0]
       | BFLOATING => with_robot i w_get_base_pose
       end ;;
  a <- with_robot i (get_joint_angles jids) ;;
  ret (a ++ b).

(** __init__.py:223-231, add_new_link *)
Definition py_add_new_link (i : nat) (name : string) (parent : nat) (pos : Vector3) (rpy : option Vector3)
  : M World unit :=
  append_add i (mkAdd name parent pos rpy) ;;;
  with_robot i (w_add_new_link name parent pos (match rpy with None => v_clear | Some r => r end)).

(** The forms in which waypoints are passed: a list of arrays, a 1-D array, a 2-D
    array (with its number of columns, needed when there are no rows). *)
Inductive PyQs := QsList (rows : list (list num)) | QsArr1 (v : list num) | QsArr2 (ncols : nat) (rows : list (list num)).

(** np.array(rows).shape: a ragged or empty list does not give two dimensions *)
Definition np_array (rows : list (list num)) : option (nat * list (list num)) :=
  match rows with
  | [] => None
  | r :: _ => if forallb (fun x => Nat.eqb (List.length x) (List.length r)) rows
              then Some (List.length r, rows) else None
  end.

(** __init__.py:121-127, solve_fk's normalisation of qs *)
Definition norm_qs_fk (qs : PyQs) : option (nat * list (list num)) :=
  match qs with
  | QsArr1 v => Some (List.length v, [v])
  | QsArr2 c rows => Some (c, rows)
  | QsList rows => np_array rows
  end.
(** __init__.py:171-176, solve_com_fk's: a 1-D array is not expanded, but an empty list
    becomes one row without columns *)
Definition norm_qs_com (qs : PyQs) : option (nat * list (list num)) :=
  match qs with
  | QsArr1 v => None
  | QsArr2 c rows => Some (c, rows)
  | QsList [] => Some (0%nat, [[]])
  | QsList rows => np_array rows
  end.

(** __init__.py:98-103, _modify_input_with_3dof_base on rows of n_dof columns; numpy
    raises when n_dof < n_joint + 3 *)
Definition modify_3dof (n_joint n_dof : nat) (rows : list (list num)) : option (list (list num)) :=
  if Nat.ltb n_dof (n_joint + 3) then None
  else Some (map (fun q => firstn (n_joint + 2) q
                           ++ repeat n0 (n_dof + 3 - (n_joint + 2) - 1)
                           ++ [nth (n_joint + 2) q n0]) rows).

(** __init__.py:155-158: J[:, [0..n-1, n, n+1, n+5]] *)
Definition extract_planar (n_joint : nat) (J : mat) : mat :=
  map (fun row => map (fun c => nth c row n0) (seq 0 n_joint ++ [n_joint; n_joint + 1; n_joint + 5])%nat) J.

(** __init__.py:133-142 and 178-187: the check of the number of columns, and the
    planar embedding *)
Definition check_dof (bt : BaseType) (n_joint n_dof : nat) (rows : list (list num)) : M World (list (list num)) :=
  match bt with
  | BPLANER => assert_ (Nat.eqb n_dof (n_joint + 3)) ;;;
               match modify_3dof n_joint n_dof rows with None => throw ValueError | Some r => ret r end
  | BFLOATING => assert_ (Nat.eqb n_dof (n_joint + 6)) ;;; ret rows
  | BFIXED => assert_ (Nat.eqb n_dof n_joint) ;;; ret rows
  end.

Definition with_base_of (bt : BaseType) : bool := match bt with BFIXED => false | _ => true end.

(** __init__.py:105-159, solve_fk (elink_ids given as a list) *)
Definition py_solve_fk (i : nat) (qs : PyQs) (elinks jids : list nat) (rt : RotationType) (bt : BaseType)
           (with_jacobian use_cache : bool) : M World (mat * mat) :=
  match norm_qs_fk qs with
  | None => throw ValueError
  | Some (n_dof, rows) =>
      rows' <- check_dof bt (List.length jids) n_dof rows ;;
      PJ <- with_robot i (solve_forward_kinematics rows' elinks jids rt (with_base_of bt) with_jacobian use_cache) ;;
      ret (fst PJ, match bt with BPLANER => extract_planar (List.length jids) (snd PJ) | _ => snd PJ end)
  end.

(** __init__.py:161-196, solve_com_fk *)
Definition py_solve_com_fk (i : nat) (qs : PyQs) (jids : list nat) (actions : option (list nat))
           (forces : option (list num)) (bt : BaseType) (with_jacobian : bool) : M World (mat * mat) :=
  match norm_qs_com qs with
  | None => throw ValueError
  | Some (n_dof, rows) =>
      rows' <- check_dof bt (List.length jids) n_dof rows ;;
      af <- match actions, forces with
            | None, _ => ret ([], [])
            | Some a, Some f => ret (a, f)
            | Some _, None => throw TypeError
            end ;;
      with_robot i (solve_com_forward_kinematics rows' jids (fst af) (snd af) (with_base_of bt) with_jacobian)
  end.

(** __init__.py:198-199 *)
Definition py_compute_total_inertia_matrix (i : nat) (q : list num) (jids : list nat) : M World mat :=
  with_robot i (compute_total_inertia_matrix q jids).

(** __init__.py:210-221, get_joint_limits *)
Definition py_get_joint_limits (i : nat) (jids : list nat) : M World (list (option ext * option ext)) :=
  l <- with_robot i (get_joint_position_limits jids) ;;
  ret (map (fun b => match b with
                     | (NegInf, PosInf) => (None, None)
                     | (lo, up) => (Some lo, Some up)
                     end) l).

(** __init__.py:243-249: waypoints of compute_inter_link_sqdists; a list is only
    converted to an array for a planar base *)
Definition norm_qs_dist (bt : BaseType) (n_joint : nat) (qs : PyQs) : res (list (list num)) :=
  match bt with
  | BPLANER =>
      match match qs with QsList rows => np_array rows | QsArr2 c rows => Some (c, rows) | QsArr1 _ => None end with
      | None => Throw ValueError
      | Some (c, rows) => match modify_3dof n_joint c rows with None => Throw ValueError | Some r => Ok r end
      end
  | _ => match qs with QsList rows => Ok rows | QsArr2 _ rows => Ok rows | QsArr1 _ => Throw TypeError end
  end.

(** __init__.py:233-266, compute_inter_link_sqdists *)
Definition py_compute_inter_link_sqdists (i : nat) (qs : PyQs) (pairs : list (nat * nat)) (jids : list nat)
           (bt : BaseType) (with_jacobian use_cache : bool) : M World (list num * mat) :=
  rows <- lift (norm_qs_dist bt (List.length jids) qs) ;;
  match pairs with
  | [] => throw ValueError
  | _ =>
      VJ <- with_robot i (compute_inter_link_squared_dists rows (map fst pairs) (map snd pairs) jids
                            (with_base_of bt) with_jacobian use_cache) ;;
      ret (fst VJ, match bt, with_jacobian with
                   | BPLANER, true => extract_planar (List.length jids) (snd VJ)
                   | _, _ => snd VJ
                   end)
  end.

(** __init__.py:268-273 *)
Definition py_clear_cache (i : nat) : M World unit := with_robot i clear_cache.
Definition py_total_mass (i : nat) : M World num := with_robot i (m <- get ;; ret (total_mass m)).

(** __init__.py:275-278, __getstate__: a shallow copy of the instance dictionary *)
Definition py_getstate (o : PyModel) : string * nat * nat := (py_xml o, py_add o, py_set o).

Definition replay_add (i : nat) (l : list AddArgs) : M World unit :=
  for_each l tt (fun a _ => py_add_new_link i (a_name a) (a_parent a) (a_pos a) (a_rpy a)).
Definition replay_set (i : nat) (l : list SetArgs) : M World unit :=
  for_each l tt (fun a _ => py_set_q i (s_jids a) (s_q a) (s_base a)).

(** __init__.py:284-288: the replay loops of __setstate__ for the new instance [i].
    deepcopy: the loops run over the contents at that time. *)
Definition py_replay (i ra rs : nat) : M World unit :=
  w0 <- get ;;
  replay_add i (nth ra (heap_add w0) []) ;;;
  w2 <- get ;;
  replay_set i (nth rs (heap_set w2) []).

(** __init__.py:280-290, __setstate__ on a new instance, for a state holding references
    to the histories [ra], [rs].  When it raises, the caller gets no instance: the new
    object is dropped, what happened to the lists remains. *)
Definition py_setstate (xml_text : string) (ra rs : nat) : M World nat :=
  fun w =>
    match ctor tinyxml xml_text with
    | Ok r =>
        let i := List.length (objs w) in
        match py_replay i ra rs (mkW (heap_add w) (heap_set w) (objs w ++ [mkPy xml_text (Some r) ra rs])) with
        | (w3, Ok _) =>
            match nth_error (objs w3) i with
            | None => (w3, Throw TypeError)
            | Some o =>
                (mkW (heap_add w3 ++ [[]]) (heap_set w3 ++ [[]])
                     (list_set (objs w3) i (mkPy (py_xml o) (py_robot o) (List.length (heap_add w3)) (List.length (heap_set w3)))),
                 Ok i)
            end
        | (w3, Throw e) => (mkW (heap_add w3) (heap_set w3) (firstn i (objs w3)), Throw e)
        | (w3, UB u) => (w3, UB u) | (w3, Diverge) => (w3, Diverge)
        end
    | Throw e => (w, Throw e) | UB u => (w, UB u) | Diverge => (w, Diverge)
    end.

(** copy.copy(obj): __setstate__ on the shallow state, so the lists are shared while
    the histories are replayed *)
Definition py_copy (i : nat) : M World nat :=
  fun w => match nth_error (objs w) i with
           | None => (w, UB OutOfBounds)
           | Some o => let '(x, ra, rs) := py_getstate o in py_setstate x ra rs w
           end.

(** A pickled object: the contents of its state *)
Record Pickle := mkPickle { pk_xml : string; pk_add : list AddArgs; pk_set : list SetArgs }.

(** pickle.dumps(obj) *)
Definition py_dumps (i : nat) : M World Pickle :=
  fun w => match nth_error (objs w) i with
           | None => (w, UB OutOfBounds)
           | Some o => (w, Ok (mkPickle (py_xml o) (nth (py_add o) (heap_add w) []) (nth (py_set o) (heap_set w) [])))
           end.

(** pickle.loads(p), also the effect of copy.deepcopy: fresh lists, then __setstate__ *)
Definition py_loads (p : Pickle) : M World nat :=
  fun w => py_setstate (pk_xml p) (List.length (heap_add w)) (List.length (heap_set w))
             (mkW (heap_add w ++ [pk_add p]) (heap_set w ++ [pk_set p]) (objs w)).

End Py.
