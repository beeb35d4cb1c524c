(** The representation relation between the abstract machine of Spec_Hist.v and the
    members of a KinematicModel (proof vocabulary). *)
From Coq Require Import String List Arith.
From Verif Require Import Base Num Pose DataStructure Urdf Kin Spec_Robot Spec_Hist Spec_Load Pf_Data Inv Pf_FK Pf_Rp.
Import ListNotations.

Section Rep.
Context `{A : Arith}.

Record same_joint (j : UJoint) (J : Joint) : Prop := {
  sj_name : j_name J = uj_name j;
  sj_type : j_type J = uj_type j;
  sj_axis : j_axis J = uj_axis j;
  sj_origin : j_origin J = uj_origin j;
  sj_limits : j_limits J = uj_limits j }.

(** link [i], named [n], hangs on joint [J] below a link named [pn] *)
Definition hangs (ls : list Link) (i : nat) (n pn : string) (J : Joint) : Prop :=
  exists l p lp, nth_error ls i = Some l /\ l_name l = n /\ l_parent l = Some p /\
                 nth_error ls p = Some lp /\ l_name lp = pn /\ l_pjoint l = Some J.

Record Named (js : list UJoint) (root : string) (added : Added) (ls : list Link) : Prop := {
  nm_root : exists i l, nth_error ls i = Some l /\ l_name l = root /\ l_parent l = None;
  nm_kind : forall i l, nth_error ls i = Some l ->
     (l_parent l = None /\ l_name l = root) \/
     (exists j J, In j js /\ uj_child j = l_name l /\ hangs ls i (uj_child j) (uj_parent j) J /\ same_joint j J) \/
     (exists pn T, In (l_name l, pn, T) added /\ hangs ls i (l_name l) pn (fixed_joint T));
  nm_joint : forall j, In j js -> exists i J, hangs ls i (uj_child j) (uj_parent j) J /\ same_joint j J;
  nm_added : forall n pn T, In (n, pn, T) added -> exists i, hangs ls i n pn (fixed_joint T)
}.

(** [sorted]: the links of the description in id order; [jsorted]: its movable joints in id
    order; [ms], [mass]: what the centre-of-mass links and the total mass should be *)
Record Rep (R : Robot) (root : string) (sorted : list (string * option Inertial)) (jsorted : list UJoint)
           (ms : list (string * Inertial)) (mass : num) (s : AState) (m : KM) : Prop := {
  rep_wf : WF m;
  rep_named : Named (r_joints R) root (as_added s) (links m);
  rep_names : map l_name (links m) = map fst sorted ++ map (fun a => fst (fst a)) (as_added s);
  rep_joints : Forall2 same_joint jsorted (joints m);
  rep_angles : joint_angles m = as_angles s;
  rep_base : base_pose m = as_base s;
  rep_rp : as_added s <> [] -> RpExact m;
  rep_rp0 : as_added s = [] -> rptable m = [];
  rep_cap : length (stack_data (tstack m)) = length sorted;
  rep_com : Forall2 (fun id ni => exists l ine, nth_error (links m) id = Some l /\ l_name l = (fst ni ++ "_com")%string /\
                        l_inertial l = Some ine /\ ine = reset_origin (snd ni))
              (com_dummy_links m) ms;
  rep_mass : total_mass m = mass;
  rep_jok : forall j, In j (r_joints R) -> supported (uj_type j) = true;
  rep_jsorted : forall j, In j jsorted <-> In j (r_joints R) /\ movable (uj_type j) = true
}.

End Rep.
