(** C78: arrays and lists passed to set_q and add_new_link, and written to later. *)
From Coq Require Import String List Arith Lia Bool Reals Lra.
From Verif Require Import Base Num Pose DataStructure Urdf Kin Wrapper Py Spec_Robot Spec_Hist Spec_Load Spec_Jac Spec_Py
  Pf_Base Inv Rep Pf_Ops Pf_Name Pf_Reach Pf_Jac Pf_Pose Pf_Local Pf_Hist Pf_Py Pf_Pickle Pf_Shape Pf_PyCalls RealArith Pf_Real Ex_Robot Thm_Py
  PyRef Spec_PyRef Pf_PyRef.
Import ListNotations.
Local Open Scope nat_scope.
Local Open Scope m_scope.

Section PfPyRef.
Context `{A : Arith}.
Context (tinyxml : string -> option (list xml)).

Lemma fold_none {B} (f : B -> World -> World) (a : nat) (l : list (nat * B)) w :
  (forall b s, In (b, s) l -> b <> a) -> fold_left (fun u s => if Nat.eqb (fst s) a then f (snd s) u else u) l w = w.
Proof.
  revert w. induction l as [|[b s] l IH]; intros w H; [reflexivity|]. cbn [fold_left fst snd].
  replace (Nat.eqb b a) with false by (symmetry; apply Nat.eqb_neq; exact (H b s (or_introl eq_refl))). apply IH. intros b' s' I. exact (H b' s' (or_intror I)).
Qed.

Lemma untouched_run cs : forall w w' g h,
  (forall a s, In (a, s) (r_held w) -> In a g) -> (forall a s, In (a, s) (r_held_ids w) -> In a h) ->
  untouched cs g h -> r_run tinyxml cs w = Some w' -> py_run tinyxml (by_value cs (r_arrays w) (r_lists w)) (r_world w) = Some (r_world w').
Proof.
  induction cs as [|c cs IH]; intros w w' g h Hg Hh Hu Hr; [cbn in *; congruence|].
  destruct c as [c|v|v|i js q bt|i n k p r|a v|l v]; cbn [r_run r_exec by_value untouched py_run] in *.
  - destruct (py_exec tinyxml c (r_world w)) as [w1 x]. specialize (IH (hold w w1 [] []) w' g h).
    cbn [hold r_world r_arrays r_lists r_held r_held_ids] in IH. rewrite !app_nil_r in IH. destruct x; try discriminate Hr; exact (IH Hg Hh Hu Hr).
  - exact (IH (mkR (r_world w) (r_arrays w ++ [v]) (r_lists w) (r_held w) (r_held_ids w)) w' g h Hg Hh Hu Hr).
  - exact (IH (mkR (r_world w) (r_arrays w) (r_lists w ++ [v]) (r_held w) (r_held_ids w)) w' g h Hg Hh Hu Hr).
  - destruct (nth_error (r_lists w) js) as [vj|] eqn:Ej; [|discriminate Hr]. destruct (nth_error (r_arrays w) q) as [vq|] eqn:Eq; [|discriminate Hr].
    cbn [py_exec]. rewrite (nth_error_nth _ _ _ Ej), (nth_error_nth _ _ _ Eq).
    destruct (py_set_q i vj vq bt (r_world w)) as [w1 x]. set (s := next_set (r_world w) i) in *.
    specialize (IH (hold w w1 [(q, HeldQ (fst s) (snd s))] [(js, s)]) w' (q :: g) (js :: h)).
    assert (G1 : forall a t, In (a, t) (r_held w ++ [(q, HeldQ (fst s) (snd s))]) -> In a (q :: g)).
    { intros a t I. apply in_app_or in I. destruct I as [I|[E|[]]]; [right; exact (Hg a t I)|left; congruence]. }
    assert (G2 : forall a t, In (a, t) (r_held_ids w ++ [(js, s)]) -> In a (js :: h)).
    { intros a t I. apply in_app_or in I. destruct I as [I|[E|[]]]; [right; exact (Hh a t I)|left; congruence]. }
    destruct x; try discriminate Hr; exact (IH G1 G2 Hu Hr).
  - destruct (nth_error (r_arrays w) p) as [vp|] eqn:Ep; [|discriminate Hr].
    set (s := next_add (r_world w) i) in *. cbn [py_exec]. rewrite (nth_error_nth _ _ _ Ep). destruct r as [r|].
    + destruct (nth_error (r_arrays w) r) as [vr|] eqn:Er; cbn [option_map] in *; [|discriminate Hr]. rewrite (nth_error_nth _ _ _ Er).
      destruct (_ && _); [|discriminate Hr].
      destruct (py_add_new_link i n k (vec3 vp) (Some (vec3 vr)) (r_world w)) as [w1 x].
      specialize (IH (hold w w1 [(p, HeldPos (fst s) (snd s)); (r, HeldRpy (fst s) (snd s))] []) w' ([r; p] ++ g) h).
      cbn [hold r_world r_arrays r_lists r_held r_held_ids] in IH. rewrite app_nil_r in IH.
      assert (G : forall a t, In (a, t) (r_held w ++ [(p, HeldPos (fst s) (snd s)); (r, HeldRpy (fst s) (snd s))]) -> In a ([r; p] ++ g)).
      { intros a t I. apply in_app_or in I. destruct I as [I|[E|[E|[]]]]; [right; right; exact (Hg a t I)|right; left; congruence|left; congruence]. }
      destruct x; try discriminate Hr; (apply (IH G Hh Hu); rewrite <- Hr; unfold hold; rewrite app_nil_r; reflexivity).
    + cbn [option_map] in *. destruct (_ && _); [|discriminate Hr].
      destruct (py_add_new_link i n k (vec3 vp) None (r_world w)) as [w1 x].
      specialize (IH (hold w w1 [(p, HeldPos (fst s) (snd s))] []) w' ([p] ++ g) h).
      cbn [hold r_world r_arrays r_lists r_held r_held_ids] in IH. rewrite app_nil_r in IH.
      assert (G : forall a t, In (a, t) (r_held w ++ [(p, HeldPos (fst s) (snd s))]) -> In a ([p] ++ g)).
      { intros a t I. apply in_app_or in I. destruct I as [I|[E|[]]]; [right; exact (Hg a t I)|left; congruence]. }
      destruct x; try discriminate Hr; (apply (IH G Hh Hu); rewrite <- Hr; unfold hold; rewrite app_nil_r; reflexivity).
  - destruct Hu as [Na Hu]. destruct (nth_error (r_arrays w) a) as [old|] eqn:Ea; [|discriminate Hr]. rewrite (nth_error_nth _ _ _ Ea).
    destruct (Nat.eqb (length v) (length old)); [|exact (IH w w' g h Hg Hh Hu Hr)].
    rewrite (fold_none (see v) a (r_held w)) in Hr by (intros b s I ->; exact (Na (Hg a s I))).
    exact (IH (mkR (r_world w) (list_set (r_arrays w) a v) (r_lists w) (r_held w) (r_held_ids w)) w' g h Hg Hh Hu Hr).
  - destruct Hu as [Na Hu]. destruct (nth_error (r_lists w) l) as [old|] eqn:Ea; [|discriminate Hr].
    rewrite (fold_none (see_ids v) l (r_held_ids w)) in Hr by (intros b s I ->; exact (Na (Hh l s I))).
    exact (IH (mkR (r_world w) (r_arrays w) (list_set (r_lists w) l v) (r_held w) (r_held_ids w)) w' g h Hg Hh Hu Hr).
Qed.
Lemma r_run_cons c t w w' r : r_exec tinyxml c w = (w', Ok tt) -> r_run tinyxml t w' = r -> r_run tinyxml (c :: t) w = r.
Proof. intros E H. cbn [r_run]. rewrite E. exact H. Qed.
End PfPyRef.

(** C78, as far as it holds: a program that does not write to an array or list after it has
    passed it to set_q or add_new_link ends with the same objects as one that passes copies;
    C40 and the other properties of such programs apply.  Missing: programs that do. *)
Theorem C78_arguments_by_reference_partial :
  forall (A : Arith) tinyxml cs w, r_run tinyxml cs r_none = Some w -> untouched cs [] [] ->
    py_run tinyxml (by_value cs [] []) no_objects = Some (r_world w).
Proof.
  intros A tinyxml cs w Hr Hu. apply (untouched_run tinyxml cs r_none w [] []); [intros a s []|intros a s []|exact Hu|exact Hr].
Qed.
Print Assumptions C78_arguments_by_reference_partial.

(** an array is filled, passed, and another one is then filled in place and passed *)
Definition ex_ref : list rcall :=
  [R_call (C_new ex_text); R_list [0; 1]; R_array [n1; n0]; R_array [n0; n0; n0]; R_set_q 0 0 0 BFIXED; R_write 1 [n0; n0; n1];
   R_write 1 [n0]; R_add_new_link 0 "hand" 3 1 None; R_array [n2; n1]; R_set_q 0 0 2 BFIXED; R_call (C_dumps 0)].
Example C78_example : exists w, r_run ex_tinyxml ex_ref r_none = Some w /\ untouched ex_ref [] [].
Proof.
  assert (B : is_some (r_run ex_tinyxml ex_ref r_none) = true) by (vm_compute; reflexivity).
  destruct (is_some_ex _ B) as (w & E). exists w. split; [exact E|]. clear. cbn [ex_ref untouched In app]. repeat split; intros H; repeat (destruct H as [H|H]; [discriminate H|]); exact H.
Qed.

(** C78, exactly: the pickled form of an instance holds its set_q and add_new_link calls in
    order, failed ones included, each with the contents its arrays and lists have when the
    instance is pickled.  Missing: instances made by copy.copy and loads, and calls with
    temporaries, whose entries nothing can change. *)
Theorem C78_pickles_follow_arrays_partial :
  forall (A : Arith) tinyxml cs w i o,
    r_run tinyxml cs r_none = Some w -> (forall c, In c cs -> direct c) -> nth_error (objs (r_world w)) i = Some o ->
    py_dumps i (r_world w) = (r_world w, Ok (mkPickle (py_xml o) (map (add_now w) (adds_of i cs)) (map (set_now w) (sets_of i cs)))).
Proof.
  intros A tinyxml cs w i o Hr Hd Ho. apply follows_dumps; [|exact Ho]. exact (follows_run tinyxml cs [] r_none w follows_none Hd Hr).
Qed.
Print Assumptions C78_pickles_follow_arrays_partial.

(** two instances; an array is passed twice and written to in between and afterwards; the
    call with a wrong length fails and is recorded; a list is changed after it was passed *)
Definition ex_ref2 : list rcall :=
  [R_call (C_new ex_text); R_call (C_new ex_text); R_list [0; 1]; R_array [n1; n0]; R_array [n0; n0; n0]; R_set_q 0 0 0 BFIXED; R_write 0 [n0; n1];
   R_set_q 0 0 0 BFIXED; R_add_new_link 0 "hand" 3 1 (Some 1); R_set_q 1 0 1 BFIXED; R_write 1 [n0; n0; n1]; R_write 0 [n2; n1]; R_write_list 0 [0];
   R_add_new_link 1 "tool" 3 1 None; R_array [n2]; R_write 2 [n1]].
Example C78_example2 : exists w o o1, r_run ex_tinyxml ex_ref2 r_none = Some w /\ (forall c, In c ex_ref2 -> direct c) /\
  nth_error (objs (r_world w)) 0 = Some o /\ nth_error (objs (r_world w)) 1 = Some o1 /\
  sets_of 0 ex_ref2 = [(0, 0, BFIXED); (0, 0, BFIXED)] /\ adds_of 0 ex_ref2 = [("hand"%string, 3, 1, Some 1)] /\
  sets_of 1 ex_ref2 = [(0, 1, BFIXED)] /\ adds_of 1 ex_ref2 = [("tool"%string, 3, 1, None)].
Proof.
  assert (B : (match r_run ex_tinyxml ex_ref2 r_none with Some w => andb (is_some (nth_error (objs (r_world w)) 0)) (is_some (nth_error (objs (r_world w)) 1)) | None => false end) = true) by (vm_compute; reflexivity).
  destruct (r_run ex_tinyxml ex_ref2 r_none) as [w|] eqn:E; [|exfalso; clear E; discriminate B]. clear E. apply andb_true_iff in B. destruct B as [B0 B1].
  destruct (is_some_ex _ B0) as (o & E0). destruct (is_some_ex _ B1) as (o1 & E1). exists w, o, o1. split; [reflexivity|]. split.
  - clear. intros c H. repeat (destruct H as [<-|H]; [exact Logic.I|]). destruct H.
  - split; [exact E0|]. split; [exact E1|]. repeat split; reflexivity.
Qed.

Lemma ex_angles0 : joint_angles ex_m0 = [0%R; 0%R].
Proof. destruct (reached_Rep _ _ _ _ _ _ _ _ (ex_reached [] ex_m0 eq_refl)) as [HR _]. rewrite (rep_angles _ _ _ _ _ _ _ _ HR), ex_after. cbn. rnum. reflexivity. Qed.
Lemma ex_set (a b : R) : exists ms, kset (A := RA) (mkSet [0; 1] [a; b] BFIXED) ex_m0 = (ms, Ok tt) /\ joint_angles ms = [a; b].
Proof.
  destruct (kset_total (A := RA) [0; 1] [a; b] BFIXED ex_m0) as (m & E & Ea & _).
  - rewrite ex_angles0. intros k [<-|[<-|[]]]; cbn [length]; lia.
  - reflexivity.
  - exists m. split; [exact E|]. rewrite Ea, ex_angles0. reflexivity.
Qed.

(** C78 fails: after set_q the program writes to the array it passed; the pickled form
    follows, and unpickling gives a configuration the model never had. *)
Theorem C78_arguments_by_reference_refuted :
  exists tinyxml text w p w' k,
    r_run (A := RA) tinyxml [R_call (C_new text); R_list [0; 1]; R_array [1%R; 0%R]; R_set_q 0 0 0 BFIXED; R_write 0 [0%R; 1%R]] r_none = Some w /\
    py_dumps 0 (r_world w) = (r_world w, Ok p) /\ py_loads tinyxml p (r_world w) = (w', Ok k) /\
    snd (py_get_q 0 [0; 1] BFIXED w') = Ok [1%R; 0%R] /\ snd (py_get_q k [0; 1] BFIXED w') = Ok [0%R; 1%R].
Proof.
  destruct (ex_set 1 0) as (m1 & E1 & A1). destruct (ex_set 0 1) as (m2 & E2 & A2).
  set (o1 := mkPy ex_text (Some m1) 0 0). set (p := mkPickle (A := RA) ex_text [] [mkSet (A := RA) [0; 1] [0%R; 1%R] BFIXED]).
  set (w := mkR (mkW [[]] [[mkSet (A := RA) [0; 1] [0%R; 1%R] BFIXED]] [o1]) [[0%R; 1%R]] [[0; 1]] [(0, HeldQ 0 0)] [(0, (0, 0))]).
  destruct (loads_ok ex_tinyxml p (r_world w) ex_m0 ex_m0 m2 ex_ctor (st_nil _) (st_cons _ [] _ _ _ E2 (st_nil _))) as (w' & Ew & Er).
  assert (An : forall (m : @KM RA) x y, joint_angles m = [x; y] -> get_joint_angles [0; 1] m = (m, Ok [x; y])).
  { intros m x y H. rewrite get_angles_spec by (rewrite H; intros j [<-|[<-|[]]]; simpl; lia). rewrite H. reflexivity. }
  exists ex_tinyxml, ex_text, w, p, w', (length (objs (r_world w))). split.
  { pose proof (set_q_eq 0 (mkSet (A := RA) [0; 1] [1%R; 0%R] BFIXED) ex_world ex_obj ex_m0 eq_refl eq_refl) as X. rewrite E1 in X. cbn [fst snd s_jids s_q s_base] in X.
    apply r_run_cons with (hold r_none ex_world [] []).
    { cbn [r_exec py_exec]. unfold pdrop. cbn [r_world r_none]. rewrite (bind_ok _ _ _ _ _ ex_init). reflexivity. }
    eapply r_run_cons; [reflexivity|]. eapply r_run_cons; [reflexivity|]. eapply r_run_cons.
    { cbn [r_exec r_lists r_arrays hold r_none app nth_error r_world]. rewrite X. reflexivity. }
    eapply r_run_cons; reflexivity. }
  split; [reflexivity|]. split; [exact Ew|]. split.
  - assert (Eo : nth_error (objs w') 0 = Some o1) by (apply (mo_old _ _ _ _ (loads_makes ex_tinyxml _ _ w' _ Ew Logic.I)); reflexivity).
    rewrite (get_q_with 0 [0; 1] w' o1 m1 BFIXED _ Eo eq_refl (An m1 _ _ A1)). reflexivity.
  - unfold robot_of in Er. destruct (nth_error (objs w') (length (objs (r_world w)))) as [o|] eqn:Eo; [|discriminate Er].
    rewrite (get_q_with _ [0; 1] w' o m2 BFIXED _ Eo Er (An m2 _ _ A2)). reflexivity.
Qed.
Print Assumptions C78_arguments_by_reference_refuted.
