(** C85-C88: several models in one program. *)
From Coq Require Import String List Arith Bool Lia.
From Verif Require Import Base Num Pose DataStructure Urdf Kin Wrapper Heap Spec_Robot Spec_Load Spec_Graph Spec_Heap Decimal RealArith
  Pf_Base Pf_Heap Pf_Heap2 Pf_Heap3 Pf_Heap4 Ex_Robot Ex_Graphs Thm_Load.
Import ListNotations.
Local Open Scope nat_scope.

(** C85: in a program that constructs any number of models (from any documents), calls their
    methods in any order and ends their lives at any time, but does not copy them, every call
    and every construction has the outcome it would have if each model were the only one: a
    value of its own that no event on another model touches. *)
Theorem C85_separate_models :
  forall (A : Arith) tinyxml es,
    (forall i, ~ In (E_copy i) es) ->
    snd (h_run tinyxml es empty_world) = snd (run_alone tinyxml es []).
Proof.
  intros A tinyxml es N. apply (run_both tinyxml es []); [apply inv_empty|]. apply no_copy_adds; [intros [|i]; discriminate|].
  apply forallb_forall. intros e I. destruct e; try reflexivity. exfalso. eapply N; eauto.
Qed.
Print Assumptions C85_separate_models.

Definition ends_ok {B} (r : res B) : bool := match r with Ok _ => true | _ => false end.
(** two arms; a link is added to each, one of them dies, the other is still used *)
Definition two_arms : list event :=
  [E_new ex_text; E_new ex_text; E_call 0 (@C_add_new_link_pose RA "grip" 2 pose_clear); E_call 1 (@C_add_new_link_pose RA "pen" 1 pose_clear);
   E_call 0 (C_get_link_ids ["grip"%string]); E_call 1 (C_get_link_ids ["pen"%string]); E_delete 0;
   E_call 1 (C_get_link_pose 3); E_call 1 (C_get_jacobian 3 [0; 1] RPY true); E_call 1 C_get_com].
Example C85_example : (forall i, ~ In (E_copy i) two_arms) /\ forallb ends_ok (snd (h_run ex_tinyxml two_arms empty_world)) = true /\
  length (snd (h_run ex_tinyxml two_arms empty_world)) = length two_arms.
Proof.
  split; [|split; vm_compute; reflexivity]. intros i I. unfold two_arms in I. repeat (destruct I as [I|I]; [discriminate I|]). destruct I.
Qed.

(** C86, the part that holds: models may also be copied (and copies copied), and all calls
    behave as if every copy had its own links, provided a model does not add a link after a
    related model (one that descends from the same constructed model by copying) has added one
    that it does not have.  [one_adds [] es] decides that. *)
Theorem C86_copies_partial :
  forall (A : Arith) tinyxml es,
    one_adds [] es = true ->
    snd (h_run tinyxml es empty_world) = snd (run_alone tinyxml es []).
Proof. intros A tinyxml es O. apply (run_both tinyxml es []); [apply inv_empty | exact O]. Qed.
Print Assumptions C86_copies_partial.

(** an arm and its copy; the copy gets a link, the original is queried and dies, the copy gets
    another link and is copied again *)
Definition arm_and_copy : list event :=
  [E_new ex_text; E_copy 0; E_call 1 (@C_add_new_link_pose RA "grip" 2 pose_clear); E_call 0 (C_get_jacobian 2 [0; 1] RPY false);
   E_call 0 (C_get_link_ids ["base"%string]); E_delete 0; E_call 1 (@C_add_new_link_pose RA "pen" 2 pose_clear); E_copy 1;
   E_call 2 (C_get_link_pose 3); E_call 1 C_get_com].
Example C86_example : one_adds [] arm_and_copy = true /\ forallb ends_ok (snd (h_run ex_tinyxml arm_and_copy empty_world)) = true /\
  length (snd (h_run ex_tinyxml arm_and_copy empty_world)) = length arm_and_copy.
Proof. split; [reflexivity|]. split; vm_compute; reflexivity. Qed.

(** C86 is false in general.  A pendulum (link a, continuous joint, link b) is copied, the copy
    gets the links x and y below b, then the original gets a link z below a: the original's
    add_new_link writes outside its table, although each of the models alone would accept its
    links. *)
Definition pendulum : list xml := [lnk "a"; lnk "b"; jnt "j" "continuous" "a" "b"].
Definition copied : list event :=
  [E_new ex_text; E_copy 0; E_call 1 (@C_add_new_link_pose RA "x" 1 pose_clear); E_call 1 (@C_add_new_link_pose RA "y" 1 pose_clear);
   E_call 0 (@C_add_new_link_pose RA "z" 0 pose_clear)].
(** for evaluating replies that are link ids *)
Definition plain (r : res (@reply RA)) : option (res (option nat)) :=
  match r with Ok R_done => Some (Ok None) | Ok (R_link i) => Some (Ok (Some i)) | Ok _ => None | Throw e => Some (Throw e) | UB u => Some (UB u) | Diverge => Some Diverge end.
Definition unplain (r : res (option nat)) : res (@reply RA) :=
  match r with Ok None => Ok R_done | Ok (Some i) => Ok (R_link i) | Throw e => Throw e | UB u => UB u | Diverge => Diverge end.
Lemma plain_inj rs l : map plain rs = map Some l -> rs = map unplain l.
Proof.
  revert l. induction rs as [|r rs IH]; intros [|x l] E; try discriminate E; [reflexivity|]. cbn [map] in E. injection E as E1 E2. cbn [map]. f_equal; [|now apply IH].
  destruct r as [[]| | |]; cbn [plain] in E1; try discriminate E1; injection E1 as <-; reflexivity.
Qed.
Theorem C86_copies_refuted :
  snd (h_run (doc pendulum) copied empty_world) = [Ok R_done; Ok R_done; Ok (R_link 2); Ok (R_link 3); UB OutOfBounds] /\
  snd (run_alone (doc pendulum) copied []) = [Ok R_done; Ok R_done; Ok (R_link 2); Ok (R_link 3); Ok (R_link 2)].
Proof.
  split.
  - apply (plain_inj _ [Ok None; Ok None; Ok (Some 2); Ok (Some 3); UB OutOfBounds]). vm_compute. reflexivity.
  - apply (plain_inj _ [Ok None; Ok None; Ok (Some 2); Ok (Some 3); Ok (Some 2)]). vm_compute. reflexivity.
Qed.
Print Assumptions C86_copies_refuted.

(** C87: whatever a program does with its models (copies that add links included), no model
    that still exists points to a link that has been freed. *)
Theorem C87_no_dangling :
  forall (A : Arith) tinyxml es w rs i h a,
    h_run tinyxml es empty_world = (w, rs) ->
    nth_error (w_models w) i = Some (Some h) -> points_to w h a -> alive w a.
Proof.
  intros A tinyxml es w rs i h a E Eh P. destruct (life_run tinyxml es empty_world (proj1 life_empty)) as (L & _). rewrite E in L. cbn [fst] in L.
  pose proof (li_inner _ L i h Eh) as Nn. induction P as [a I|a I|j a I Ej|b l a I El Ep|b l a P IH El I].
  - eapply li_held; eauto.
  - eapply li_held; eauto. apply (nn_com _ _ Nn), I.
  - eapply li_held; eauto. eapply nn_jc; eauto.
  - eapply li_held; eauto. eapply nn_par; eauto.
  - apply (li_closed _ L b a). exists l. auto.
Qed.
Print Assumptions C87_no_dangling.

Lemma some_at {B} (l : list (option B)) i : (match nth_error l i with Some (Some _) => true | _ => false end) = true -> exists h, nth_error l i = Some (Some h).
Proof. destruct (nth_error l i) as [[h|]|]; try discriminate. intros _. now exists h. Qed.

Lemma none_left {B} (l : list (option B)) : forallb negb (map (fun x => match x with Some _ => true | None => false end) l) = true -> forall i h, nth_error l i <> Some (Some h).
Proof.
  induction l as [|[x|] l IH]; intros E [|i] h Eh; try discriminate. cbn [nth_error] in Eh. cbn [map forallb negb andb] in E. eapply IH; eauto.
Qed.
(** the copy of a deleted arm still points to links *)
Example C87_example : exists w rs h a, h_run ex_tinyxml arm_and_copy empty_world = (w, rs) /\ nth_error (w_models w) 2 = Some (Some h) /\ points_to w h a.
Proof.
  destruct (h_run ex_tinyxml arm_and_copy empty_world) as [w rs] eqn:E.
  assert (X : (match nth_error (w_models (fst (h_run ex_tinyxml arm_and_copy empty_world))) 2 with Some (Some _) => true | _ => false end) = true) by (vm_compute; reflexivity).
  assert (Y : (match nth_error (w_models (fst (h_run ex_tinyxml arm_and_copy empty_world))) 2 with Some (Some h) => match hlinks h with [] => false | _ => true end | _ => false end) = true) by (vm_compute; reflexivity).
  rewrite E in X, Y. cbn [fst] in X, Y. clear E. exists w, rs. destruct (some_at _ _ X) as (h & Eh). rewrite Eh in Y. exists h. destruct (hlinks h) as [|a l] eqn:El; [discriminate Y|].
  exists a. split; [reflexivity|]. split; [exact Eh|]. apply pt_link. rewrite El. left. reflexivity.
Qed.

(** C88, the part that holds: if no document has a cycle of joints, then at any time every link
    that has not been freed is held by an existing model or lies below such a link; in
    particular all links are freed when all models are gone. *)
Theorem C88_no_leak_partial :
  forall (A : Arith) tinyxml es w rs,
    (forall text top R, In (E_new text) es -> tinyxml text = Some top -> describes top R -> cycle_free R) ->
    h_run tinyxml es empty_world = (w, rs) ->
    (forall a, alive w a -> in_use w a) /\
    ((forall i h, nth_error (w_models w) i <> Some (Some h)) -> forall a, ~ alive w a).
Proof.
  intros A tinyxml es w rs Hc E. destruct life_empty as (L0 & T0). destruct (life_run tinyxml es empty_world L0) as (_ & T). rewrite E in T. cbn [fst] in T.
  assert (G : forall a, alive w a -> in_use w a).
  { apply ti_used, T; auto. intros e I. destruct e; cbn [tree_docs]; auto. intros top R. now apply Hc. }
  split; [exact G|]. intros Hn a La. destruct (G a La) as (i & h & b & Eh & _). eapply Hn; eauto.
Qed.
Print Assumptions C88_no_leak_partial.

(** two joints from a to b; the model is copied, the copy gets a link, both die *)
Definition all_gone : list event :=
  [E_new ex_text; E_copy 0; E_call 1 (@C_add_new_link_pose RA "x" 1 pose_clear); E_delete 0; E_delete 1].
Example C88_example : exists w rs, (forall text top R, In (E_new text) all_gone -> doc twice text = Some top -> describes top R -> cycle_free R) /\
  h_run (doc twice) all_gone empty_world = (w, rs) /\ length (w_heap w) = 3 /\ forall i h, nth_error (w_models w) i <> Some (Some h).
Proof.
  destruct (h_run (doc twice) all_gone empty_world) as [w rs] eqn:E. exists w, rs.
  assert (X : length (w_heap (fst (h_run (doc twice) all_gone empty_world))) = 3) by (vm_compute; reflexivity).
  assert (Y : map (fun x => match x with Some _ => true | None => false end) (w_models (fst (h_run (doc twice) all_gone empty_world))) = [false; false]) by (vm_compute; reflexivity).
  rewrite E in X, Y. cbn [fst] in X, Y. clear E. split; [|split; [reflexivity|split; [exact X|]]].
  - intros text top R I. assert (T : text = ex_text) by (unfold all_gone in I; destruct I as [I|I]; [injection I as <-; reflexivity | repeat (destruct I as [I|I]; [discriminate I|]); destruct I]).
    rewrite T. apply C49_partial_example.
  - apply none_left. rewrite Y. reflexivity.
Qed.

(** C88 is false in general: a link and, next to it, two links joined in a cycle are accepted,
    and the cycle is never freed. *)
Theorem C88_no_leak_refuted :
  exists w rs a, h_run (doc island) [E_new ex_text; E_delete 0] empty_world = (w, rs) /\ rs = [Ok R_done; Ok R_done] /\
    (forall i h, nth_error (w_models w) i <> Some (Some h)) /\ alive w a.
Proof.
  set (es := [E_new ex_text; E_delete 0]). destruct (h_run (doc island) es empty_world) as [w rs] eqn:E. exists w, rs, 1.
  assert (X : (match nth_error (w_heap (fst (h_run (doc island) es empty_world))) 1 with Some (Some _) => true | _ => false end) = true) by (vm_compute; reflexivity).
  assert (Y : map (fun x => match x with Some _ => true | None => false end) (w_models (fst (h_run (doc island) es empty_world))) = [false]) by (vm_compute; reflexivity).
  assert (Z : snd (h_run (doc island) es empty_world) = [Ok R_done; Ok R_done]) by (apply (plain_inj _ [Ok None; Ok None]); vm_compute; reflexivity).
  rewrite E in X, Y, Z. cbn [fst snd] in X, Y, Z. clear E. split; [reflexivity|]. split; [exact Z|]. split; [|apply some_at in X; exact X].
  apply none_left. rewrite Y. reflexivity.
Qed.
Print Assumptions C88_no_leak_refuted.
