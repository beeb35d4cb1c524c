(** The histories of instances follow the arrays they hold. *)
From Coq Require Import String List Arith Lia Bool.
From Verif Require Import Base Num Pose DataStructure Urdf Kin Wrapper Py Spec_Robot Spec_Hist Spec_Load Spec_Py
  Pf_Base Pf_Py Pf_Pickle PyRef Spec_PyRef.
Import ListNotations.
Local Open Scope nat_scope.
Local Open Scope m_scope.

Section PfPyRef.
Context `{A : Arith}.
Context (tinyxml : string -> option (list xml)).

(** ** Calls that leave the histories alone *)
Definition refs (o : PyModel) : nat * nat := (py_add o, py_set o).
Definition silent (w w' : World) : Prop :=
  heap_add w' = heap_add w /\ heap_set w' = heap_set w /\ map refs (objs w') = map refs (objs w).
Definition quiet {B} (f : M World B) : Prop := forall w w' r, f w = (w', r) -> silent w w'.

Lemma silent_refl w : silent w w. Proof. repeat split. Qed.
Lemma silent_trans a b c : silent a b -> silent b c -> silent a c.
Proof. intros (H1 & H2 & H3) (K1 & K2 & K3). repeat split; congruence. Qed.
Lemma quiet_ret {B} (b : B) : quiet (ret b). Proof. intros w w' r E. inversion E; subst. apply silent_refl. Qed.
Lemma quiet_lift {B} (x : res B) : quiet (lift x). Proof. intros w w' r E. inversion E; subst. apply silent_refl. Qed.
Lemma quiet_throw {B} e : quiet (throw e : M World B). Proof. intros w w' r E. inversion E; subst. apply silent_refl. Qed.
Lemma quiet_assert b : quiet (assert_ b). Proof. destruct b; [apply quiet_ret|apply quiet_throw]. Qed.
Lemma quiet_bind {B C} (x : M World B) (f : B -> M World C) : quiet x -> (forall b, quiet (f b)) -> quiet (bind x f).
Proof.
  intros Hx Hf w w' r E. unfold bind in E. destruct (x w) as [w1 [b|e|u|]] eqn:Ex; try (inversion E; subst; exact (Hx _ _ _ Ex)).
  eapply silent_trans; [exact (Hx _ _ _ Ex) | exact (Hf b _ _ _ E)].
Qed.
Lemma quiet_robot {B} t (f : M KM B) : quiet (with_robot t f).
Proof.
  intros w w' r E. unfold with_robot in E. destruct (nth_error (objs w) t) as [o|] eqn:Eo; [|inversion E; subst; apply silent_refl].
  destruct (py_robot o) as [m|]; [|inversion E; subst; apply silent_refl]. destruct (f m) as [m' x]. inversion E; subst.
  unfold w_put_obj. repeat split. cbn [objs]. clear E. revert t Eo. generalize (objs w) as l.
  induction l as [|o' l IH]; intros [|t] Eo; cbn in *; try discriminate; [inversion Eo; subst; reflexivity|]. f_equal. auto.
Qed.
Lemma quiet_pdrop {B} (f : M World B) : quiet f -> quiet (pdrop f).
Proof. intros H. apply quiet_bind; auto. intros; apply quiet_ret. Qed.
Lemma quiet_set_rest i jids q bt : quiet (
  match bt with
  | BPLANER =>
      assert_ (Nat.eqb (List.length q) (List.length jids + 3)) ;;;
      let b := last_k 3 q in
      with_robot i (set_joint_angles jids (drop_last 3 q)) ;;;
      with_robot i (w_set_base_pose [nth 0 b n0; nth 1 b n0; n0; n0; n0; nth 2 b n0])
  | BFLOATING =>
      assert_ (Nat.eqb (List.length q) (List.length jids + 6)) ;;;
      with_robot i (set_joint_angles jids (drop_last 6 q)) ;;;
      with_robot i (w_set_base_pose (last_k 6 q))
  | BFIXED =>
      assert_ (Nat.eqb (List.length q) (List.length jids)) ;;;
      with_robot i (set_joint_angles jids q)
  end).
Proof.
  destruct bt; (apply quiet_bind; [apply quiet_assert|intros _]); cbv zeta; try apply quiet_robot;
    (apply quiet_bind; [apply quiet_robot|intros _]); apply quiet_robot.
Qed.
Lemma quiet_exec c : records_nothing c -> quiet (py_exec tinyxml c).
Proof.
  intros T. destruct c; cbn [records_nothing] in T; try destruct T; cbn [py_exec]; try apply quiet_pdrop; try apply quiet_robot.
  - apply quiet_bind; [|intros b; apply quiet_bind; [apply quiet_robot | intros a; apply quiet_ret]].
    destruct bt; [apply quiet_ret | apply quiet_bind; [apply quiet_robot | intros; apply quiet_ret] | apply quiet_robot].
  - unfold py_solve_fk. destruct (norm_qs_fk qs) as [[nd rows]|]; [|apply quiet_throw]. apply quiet_bind.
    + destruct bt; apply quiet_bind; auto using quiet_assert; intros _; auto using quiet_ret. destruct (modify_3dof _ nd rows); auto using quiet_ret, quiet_throw.
    + intros rows'. apply quiet_bind; [apply quiet_robot|]. intros; apply quiet_ret.
  - unfold py_solve_com_fk. destruct (norm_qs_com qs) as [[nd rows]|]; [|apply quiet_throw]. apply quiet_bind.
    + destruct bt; apply quiet_bind; auto using quiet_assert; intros _; auto using quiet_ret. destruct (modify_3dof _ nd rows); auto using quiet_ret, quiet_throw.
    + intros rows'. apply quiet_bind; [destruct actions, forces; auto using quiet_ret, quiet_throw|]. intros; apply quiet_robot.
  - apply quiet_bind; [apply quiet_robot|]. intros; apply quiet_ret.
  - apply quiet_bind; [apply quiet_lift|]. intros rows. destruct pairs; [apply quiet_throw|]. apply quiet_bind; [apply quiet_robot|]. intros; apply quiet_ret.
  - intros w w' r E. unfold py_dumps in E. destruct (nth_error (objs w) i); inversion E; subst; apply silent_refl.
Qed.

(** ** Writing to an array *)
Definition ent {B} (l : list (list B)) (h k : nat) : option B :=
  match nth_error l h with Some e => nth_error e k | None => None end.

Lemma at_entry_ent {B} (f : B -> B) h k l h' k' :
  ent (at_entry f h k l) h' k' = if Nat.eqb h h' && Nat.eqb k k' then option_map f (ent l h' k') else ent l h' k'.
Proof.
  unfold at_entry, ent. destruct (nth_error l h) as [e|] eqn:Eh.
  - destruct (nth_error e k) as [b|] eqn:Ek.
    + rewrite nth_error_list_set. destruct (Nat.eqb_spec h h') as [<-|N]; cbn [andb]; [|reflexivity].
      rewrite (proj2 (Nat.ltb_lt _ _) (nth_error_lt _ _ _ Eh)), Eh, nth_error_list_set. destruct (Nat.eqb_spec k k') as [<-|N]; cbn [andb]; [|reflexivity].
      rewrite (proj2 (Nat.ltb_lt _ _) (nth_error_lt _ _ _ Ek)), Ek. reflexivity.
    + destruct (Nat.eqb_spec h h') as [<-|N]; cbn [andb]; [|reflexivity]. rewrite Eh. destruct (Nat.eqb_spec k k') as [<-|N]; [|reflexivity]. rewrite Ek. reflexivity.
  - destruct (Nat.eqb_spec h h') as [<-|N]; cbn [andb]; [|reflexivity]. rewrite Eh. destruct (Nat.eqb k k'); reflexivity.
Qed.
Lemma at_entry_len {B} (f : B -> B) h k l : length (at_entry f h k l) = length l.
Proof. unfold at_entry. destruct (nth_error l h) as [e|]; [|reflexivity]. destruct (nth_error e k); [apply list_set_length|reflexivity]. Qed.

Lemma nth_error_same {B} (l l' : list B) : (forall k, nth_error l k = nth_error l' k) -> l = l'.
Proof.
  revert l'. induction l as [|a l IH]; intros [|b l'] H; [reflexivity|discriminate (H 0)|discriminate (H 0)|].
  pose proof (H 0) as E. cbn in E. inversion E; subst. f_equal. apply IH. intros k. exact (H (S k)).
Qed.
Lemma ent_list {B} (l : list (list B)) h L : h < length l -> (forall k, ent l h k = nth_error L k) -> nth_error l h = Some L.
Proof.
  intros Lh H. unfold ent in H. destruct (nth_error l h) as [e|] eqn:E; [|apply nth_error_None in E; lia].
  f_equal. apply nth_error_same. exact H.
Qed.

Definition slot_eqb (s t : slot) : bool :=
  match s, t with
  | HeldQ h k, HeldQ h' k' => Nat.eqb h h' && Nat.eqb k k'
  | HeldPos h k, HeldPos h' k' => Nat.eqb h h' && Nat.eqb k k'
  | HeldRpy h k, HeldRpy h' k' => Nat.eqb h h' && Nat.eqb k k'
  | _, _ => false
  end.
Lemma slot_eqb_spec s t : slot_eqb s t = true <-> s = t.
Proof. destruct s, t; cbn; try (split; discriminate); rewrite andb_true_iff, !Nat.eqb_eq; (split; [intros [-> ->]; reflexivity|intros E; inversion E; auto]). Qed.
Definition has (a : nat) (t : slot) (l : list (nat * slot)) : bool := existsb (fun s => Nat.eqb (fst s) a && slot_eqb (snd s) t) l.
Lemma has_in a t l : has a t l = true <-> In (a, t) l.
Proof.
  unfold has. rewrite existsb_exists. split.
  - intros ((b & s) & I & E). apply andb_true_iff in E. destruct E as [E1 E2]. apply Nat.eqb_eq in E1. apply slot_eqb_spec in E2. cbn in *. subst. exact I.
  - intros I. exists (a, t). split; [exact I|]. cbn. rewrite Nat.eqb_refl. apply slot_eqb_spec. reflexivity.
Qed.

Definition tell (v : list num) (a : nat) (l : list (nat * slot)) (w : World) : World :=
  fold_left (fun u s => if Nat.eqb (fst s) a then see v (snd s) u else u) l w.
Lemma tell_spec v a l : forall w,
  objs (tell v a l w) = objs w /\ length (heap_set (tell v a l w)) = length (heap_set w) /\ length (heap_add (tell v a l w)) = length (heap_add w) /\
  (forall h k, ent (heap_set (tell v a l w)) h k =
     option_map (fun e => if has a (HeldQ h k) l then mkSet (s_jids e) v (s_base e) else e) (ent (heap_set w) h k)) /\
  (forall h k, ent (heap_add (tell v a l w)) h k =
     option_map (fun e => mkAdd (a_name e) (a_parent e) (if has a (HeldPos h k) l then vec3 v else a_pos e)
                                (if has a (HeldRpy h k) l then Some (vec3 v) else a_rpy e)) (ent (heap_add w) h k)).
Proof.
  induction l as [|[b s] l IH]; intros w.
  - cbn [tell fold_left has existsb]. repeat split; intros h k.
    + destruct (ent (heap_set w) h k); reflexivity.
    + destruct (ent (heap_add w) h k) as [[]|]; reflexivity.
  - set (w1 := if Nat.eqb b a then see v s w else w). destruct (IH w1) as (H1 & H2 & H3 & H4 & H5).
    change (tell v a ((b, s) :: l) w) with (tell v a l w1).
    assert (K : objs w1 = objs w /\ length (heap_set w1) = length (heap_set w) /\ length (heap_add w1) = length (heap_add w)).
    { unfold w1. destruct (Nat.eqb b a); [|auto]. destruct s; cbn [see objs heap_set heap_add]; rewrite ?at_entry_len; auto. }
    destruct K as (K1 & K2 & K3). rewrite H1, H2, H3. split; [exact K1|]. split; [exact K2|]. split; [exact K3|]. split; intros h k.
    + rewrite H4. unfold has. cbn [existsb fst snd]. fold (has a (HeldQ h k) l). unfold w1. destruct (Nat.eqb b a); cbn [andb orb]; [|reflexivity].
      destruct s as [h' k'|h' k'|h' k']; cbn [see heap_set slot_eqb orb]; try reflexivity.
      rewrite at_entry_ent. destruct (_ && _); cbn [orb]; [|reflexivity].
      destruct (ent (heap_set w) h k) as [e|]; [|reflexivity]. cbn [option_map s_jids s_base]. destruct (has a (HeldQ h k) l); reflexivity.
    + rewrite H5. unfold has. cbn [existsb fst snd]. fold (has a (HeldPos h k) l). fold (has a (HeldRpy h k) l). unfold w1. destruct (Nat.eqb b a); cbn [andb orb]; [|reflexivity].
      destruct s as [h' k'|h' k'|h' k']; cbn [see heap_add slot_eqb orb]; try reflexivity.
      * rewrite at_entry_ent. destruct (_ && _); cbn [orb]; [|reflexivity].
        destruct (ent (heap_add w) h k) as [e|]; [|reflexivity]. cbn [option_map a_name a_parent a_pos a_rpy]. destruct (has a (HeldPos h k) l); reflexivity.
      * rewrite at_entry_ent. destruct (_ && _); cbn [orb]; [|reflexivity].
        destruct (ent (heap_add w) h k) as [e|]; [|reflexivity]. cbn [option_map a_name a_parent a_pos a_rpy]. destruct (has a (HeldRpy h k) l); reflexivity.
Qed.

Definition has_ids (a h k : nat) (l : list (nat * (nat * nat))) : bool :=
  existsb (fun s => Nat.eqb (fst s) a && (Nat.eqb (fst (snd s)) h && Nat.eqb (snd (snd s)) k)) l.
Lemma has_ids_in a h k l : has_ids a h k l = true <-> In (a, (h, k)) l.
Proof.
  unfold has_ids. rewrite existsb_exists. split.
  - intros ((b & h' & k') & I & E). rewrite !andb_true_iff, !Nat.eqb_eq in E. cbn in E. destruct E as [-> [-> ->]]. exact I.
  - intros I. exists (a, (h, k)). split; [exact I|]. cbn. rewrite !Nat.eqb_refl. reflexivity.
Qed.
Definition tell_ids (v : list nat) (a : nat) (l : list (nat * (nat * nat))) (w : World) : World :=
  fold_left (fun u s => if Nat.eqb (fst s) a then see_ids v (snd s) u else u) l w.
Lemma tell_ids_spec v a l : forall w,
  objs (tell_ids v a l w) = objs w /\ length (heap_set (tell_ids v a l w)) = length (heap_set w) /\ heap_add (tell_ids v a l w) = heap_add w /\
  (forall h k, ent (heap_set (tell_ids v a l w)) h k =
     option_map (fun e => if has_ids a h k l then mkSet v (s_q e) (s_base e) else e) (ent (heap_set w) h k)).
Proof.
  induction l as [|[b s] l IH]; intros w.
  - cbn [tell_ids fold_left has_ids existsb]. repeat split; intros h k. destruct (ent (heap_set w) h k); reflexivity.
  - set (w1 := if Nat.eqb b a then see_ids v s w else w). destruct (IH w1) as (H1 & H2 & H3 & H4).
    change (tell_ids v a ((b, s) :: l) w) with (tell_ids v a l w1).
    assert (K : objs w1 = objs w /\ length (heap_set w1) = length (heap_set w) /\ heap_add w1 = heap_add w).
    { unfold w1. destruct (Nat.eqb b a); [|auto]. cbn [see_ids objs heap_set heap_add]; rewrite ?at_entry_len; auto. }
    destruct K as (K1 & K2 & K3). rewrite H1, H2, H3. split; [exact K1|]. split; [exact K2|]. split; [exact K3|]. intros h k.
    rewrite H4. unfold has_ids. cbn [existsb fst snd]. fold (has_ids a h k l). unfold w1. destruct (Nat.eqb b a); cbn [andb orb]; [|reflexivity].
    cbn [see_ids heap_set]. rewrite at_entry_ent. destruct (_ && _); cbn [orb]; [|reflexivity].
    destruct (ent (heap_set w) h k) as [e|]; [|reflexivity]. cbn [option_map s_q s_base]. destruct (has_ids a h k l); reflexivity.
Qed.

(** ** The invariant *)
Record follows (cs : list rcall) (w : RWorld) : Prop := {
  fo_tidy : tidy (r_world w);
  fo_set : forall i o, nth_error (objs (r_world w)) i = Some o -> nth_error (heap_set (r_world w)) (py_set o) = Some (map (set_now w) (sets_of i cs));
  fo_add : forall i o, nth_error (objs (r_world w)) i = Some o -> nth_error (heap_add (r_world w)) (py_add o) = Some (map (add_now w) (adds_of i cs));
  fo_none : forall i, nth_error (objs (r_world w)) i = None -> sets_of i cs = [] /\ adds_of i cs = [];
  fo_q : forall a h k, In (a, HeldQ h k) (r_held w) <->
    exists i o js bt, nth_error (objs (r_world w)) i = Some o /\ py_set o = h /\ nth_error (sets_of i cs) k = Some (js, a, bt);
  fo_ids : forall a h k, In (a, (h, k)) (r_held_ids w) <->
    exists i o q bt, nth_error (objs (r_world w)) i = Some o /\ py_set o = h /\ nth_error (sets_of i cs) k = Some (a, q, bt);
  fo_pos : forall a h k, In (a, HeldPos h k) (r_held w) <->
    exists i o n p r, nth_error (objs (r_world w)) i = Some o /\ py_add o = h /\ nth_error (adds_of i cs) k = Some (n, p, a, r);
  fo_rpy : forall a h k, In (a, HeldRpy h k) (r_held w) <->
    exists i o n p b, nth_error (objs (r_world w)) i = Some o /\ py_add o = h /\ nth_error (adds_of i cs) k = Some (n, p, b, Some a);
  fo_sets_in : forall i js q bt, In (js, q, bt) (sets_of i cs) -> js < length (r_lists w) /\ q < length (r_arrays w);
  fo_adds_in : forall i n k p r, In (n, k, p, r) (adds_of i cs) -> p < length (r_arrays w) /\ forall b, r = Some b -> b < length (r_arrays w) }.

Lemma sets_of_app i cs c : sets_of i (cs ++ [c]) = sets_of i cs ++ sets_of i [c].
Proof. unfold sets_of. apply flat_map_app. Qed.
Lemma adds_of_app i cs c : adds_of i (cs ++ [c]) = adds_of i cs ++ adds_of i [c].
Proof. unfold adds_of. apply flat_map_app. Qed.
(** statements that are no set_q and no add_new_link *)
Definition other (c : rcall) : Prop := match c with R_set_q _ _ _ _ | R_add_new_link _ _ _ _ _ => False | _ => True end.
Lemma other_sets i cs c : other c -> sets_of i (cs ++ [c]) = sets_of i cs.
Proof. intros O. rewrite sets_of_app. destruct c; cbn in O; try destruct O; cbn; apply app_nil_r. Qed.
Lemma other_adds i cs c : other c -> adds_of i (cs ++ [c]) = adds_of i cs.
Proof. intros O. rewrite adds_of_app. destruct c; cbn in O; try destruct O; cbn; apply app_nil_r. Qed.

(** the parts about the program only see it through [sets_of] and [adds_of] *)
Lemma follows_ext cs cs' w : (forall i, sets_of i cs' = sets_of i cs) -> (forall i, adds_of i cs' = adds_of i cs) -> follows cs w -> follows cs' w.
Proof.
  intros S D [H1 H2 H3 H4 H5 H6 H7 H8 H9 H10]. constructor; intros.
  - exact H1.
  - rewrite S. auto.
  - rewrite D. auto.
  - rewrite S, D. auto.
  - setoid_rewrite S. auto.
  - setoid_rewrite S. auto.
  - setoid_rewrite D. auto.
  - setoid_rewrite D. auto.
  - rewrite S in H. eauto.
  - rewrite D in H. eauto.
Qed.

(** the refs of an instance *)
Lemma map_refs w w' i o : map refs (objs w') = map refs (objs w) -> nth_error (objs w') i = Some o ->
  exists o0, nth_error (objs w) i = Some o0 /\ py_add o = py_add o0 /\ py_set o = py_set o0.
Proof.
  intros E H. assert (K : nth_error (map refs (objs w)) i = Some (refs o)) by (rewrite <- E; apply map_nth_error; exact H).
  rewrite nth_error_map in K. destruct (nth_error (objs w) i) as [o0|]; [|discriminate K]. cbn in K. inversion K. eauto.
Qed.
Lemma map_refs_none w w' i : map refs (objs w') = map refs (objs w) -> nth_error (objs w') i = None -> nth_error (objs w) i = None.
Proof. intros E H. apply nth_error_None in H. apply nth_error_None. rewrite <- (map_length refs), <- E, map_length. exact H. Qed.

Lemma follows_silent cs w u : silent (r_world w) u -> follows cs w -> follows cs (mkR u (r_arrays w) (r_lists w) (r_held w) (r_held_ids w)).
Proof.
  intros (S1 & S2 & S3) [H1 H2 H3 H4 H5 H6 H7 H8 H9 H10].
  assert (S3' : map refs (objs (r_world w)) = map refs (objs u)) by auto.
  assert (Iff : forall (P : nat -> nat -> nat -> Prop),
    (exists i o, nth_error (objs (r_world w)) i = Some o /\ P i (py_add o) (py_set o)) <-> (exists i o, nth_error (objs u) i = Some o /\ P i (py_add o) (py_set o))).
  { intros P. split; intros (i & o & E & p).
    - destruct (map_refs u (r_world w) i o S3' E) as (o0 & E0 & R1 & R2). exists i, o0. rewrite <- R1, <- R2. auto.
    - destruct (map_refs (r_world w) u i o S3 E) as (o0 & E0 & R1 & R2). exists i, o0. rewrite <- R1, <- R2. auto. }
  constructor; cbn [r_world r_arrays r_lists r_held r_held_ids].
  - destruct H1 as [V O]. constructor.
    + intros i o E. destruct (map_refs _ _ i o S3 E) as (o0 & E0 & -> & ->). rewrite S1, S2. eauto.
    + intros i j o o' E E' N. destruct (map_refs _ _ i o S3 E) as (o0 & E0 & -> & ->). destruct (map_refs _ _ j o' S3 E') as (o1 & E1 & -> & ->). eauto.
  - intros i o E. destruct (map_refs _ _ i o S3 E) as (o0 & E0 & _ & ->). rewrite S2. exact (H2 i o0 E0).
  - intros i o E. destruct (map_refs _ _ i o S3 E) as (o0 & E0 & -> & _). rewrite S1. exact (H3 i o0 E0).
  - intros i E. apply H4. exact (map_refs_none _ _ i S3 E).
  - intros a h k. rewrite H5. specialize (Iff (fun i _ s => s = h /\ exists js bt, nth_error (sets_of i cs) k = Some (js, a, bt))).
    split; intros (i & o & x & y & E & P & Q); destruct Iff as [I1 I2]; [destruct I1 as (i' & o' & E' & P' & x' & y' & Q')|destruct I2 as (i' & o' & E' & P' & x' & y' & Q')]; eauto 10.
  - intros a h k. rewrite H6. specialize (Iff (fun i _ s => s = h /\ exists q bt, nth_error (sets_of i cs) k = Some (a, q, bt))).
    split; intros (i & o & x & y & E & P & Q); destruct Iff as [I1 I2]; [destruct I1 as (i' & o' & E' & P' & x' & y' & Q')|destruct I2 as (i' & o' & E' & P' & x' & y' & Q')]; eauto 10.
  - intros a h k. rewrite H7. specialize (Iff (fun i s _ => s = h /\ exists n p r, nth_error (adds_of i cs) k = Some (n, p, a, r))).
    split; intros (i & o & x & y & z & E & P & Q); destruct Iff as [I1 I2]; [destruct I1 as (i' & o' & E' & P' & x' & y' & z' & Q')|destruct I2 as (i' & o' & E' & P' & x' & y' & z' & Q')]; eauto 11.
  - intros a h k. rewrite H8. specialize (Iff (fun i s _ => s = h /\ exists n p r, nth_error (adds_of i cs) k = Some (n, p, r, Some a))).
    split; intros (i & o & x & y & z & E & P & Q); destruct Iff as [I1 I2]; [destruct I1 as (i' & o' & E' & P' & x' & y' & z' & Q')|destruct I2 as (i' & o' & E' & P' & x' & y' & z' & Q')]; eauto 11.
  - exact H9.
  - exact H10.
Qed.

Lemma follows_upd cs w w' : follows cs w -> objs (r_world w') = objs (r_world w) ->
  length (heap_set (r_world w')) = length (heap_set (r_world w)) -> length (heap_add (r_world w')) = length (heap_add (r_world w)) ->
  r_held w' = r_held w -> r_held_ids w' = r_held_ids w -> length (r_lists w) <= length (r_lists w') -> length (r_arrays w) <= length (r_arrays w') ->
  (forall i o, nth_error (objs (r_world w)) i = Some o -> nth_error (heap_set (r_world w')) (py_set o) = Some (map (set_now w') (sets_of i cs))) ->
  (forall i o, nth_error (objs (r_world w)) i = Some o -> nth_error (heap_add (r_world w')) (py_add o) = Some (map (add_now w') (adds_of i cs))) ->
  follows cs w'.
Proof.
  intros [H1 H2 H3 H4 H5 H6 H7 H8 H9 H10] Eo L1 L2 Eh Ei L3 L4 S D. constructor; rewrite ?Eo, ?Eh, ?Ei; auto.
  - destruct H1 as [V O]. constructor; rewrite Eo; auto. rewrite L1, L2. exact V.
  - intros i js q bt I. destruct (H9 _ _ _ _ I). lia.
  - intros i n k p r I. destruct (H10 _ _ _ _ _ I) as [X Y]. split; [lia|]. intros b Eb. specialize (Y b Eb). lia.
Qed.
Lemma set_now_same w w' i cs : follows cs w ->
  (forall k, k < length (r_lists w) -> nth k (r_lists w') [] = nth k (r_lists w) []) ->
  (forall k, k < length (r_arrays w) -> nth k (r_arrays w') [] = nth k (r_arrays w) []) ->
  map (set_now w') (sets_of i cs) = map (set_now w) (sets_of i cs).
Proof.
  intros F L R. apply map_ext_in. intros [[js q] bt] I. destruct (fo_sets_in _ _ F _ _ _ _ I) as [X Y]. cbn. rewrite L, R by assumption. reflexivity.
Qed.
Lemma add_now_same w w' i cs : follows cs w ->
  (forall k, k < length (r_arrays w) -> nth k (r_arrays w') [] = nth k (r_arrays w) []) ->
  map (add_now w') (adds_of i cs) = map (add_now w) (adds_of i cs).
Proof.
  intros F R. apply map_ext_in. intros [[[n k] p] r] I. destruct (fo_adds_in _ _ F _ _ _ _ _ I) as [X Y]. cbn. rewrite R by assumption.
  destruct r as [r|]; [|reflexivity]. cbn. rewrite R by (apply Y; reflexivity). reflexivity.
Qed.

Lemma follows_array cs w v : follows cs w -> follows cs (mkR (r_world w) (r_arrays w ++ [v]) (r_lists w) (r_held w) (r_held_ids w)).
Proof.
  intros F. assert (R : forall k, k < length (r_arrays w) -> nth k (r_arrays w ++ [v]) [] = nth k (r_arrays w) []) by (intros; apply app_nth1; assumption).
  apply (follows_upd cs w); cbn [r_world r_arrays r_lists r_held r_held_ids]; auto; [rewrite app_length; lia| |]; intros i o E.
  - rewrite (set_now_same w) by auto. exact (fo_set _ _ F i o E).
  - rewrite (add_now_same w) by auto. exact (fo_add _ _ F i o E).
Qed.
Lemma follows_list cs w v : follows cs w -> follows cs (mkR (r_world w) (r_arrays w) (r_lists w ++ [v]) (r_held w) (r_held_ids w)).
Proof.
  intros F. assert (R : forall k, k < length (r_lists w) -> nth k (r_lists w ++ [v]) [] = nth k (r_lists w) []) by (intros; apply app_nth1; assumption).
  apply (follows_upd cs w); cbn [r_world r_arrays r_lists r_held r_held_ids]; auto; [rewrite app_length; lia| |]; intros i o E.
  - rewrite (set_now_same w) by auto. exact (fo_set _ _ F i o E).
  - rewrite (add_now_same w) by auto. exact (fo_add _ _ F i o E).
Qed.

Lemma nth_nth_error {B} (l : list B) k d : nth k l d = match nth_error l k with Some b => b | None => d end.
Proof. revert k. induction l as [|a l IH]; intros [|k]; cbn; auto. Qed.
Lemma nth_list_set {B} (l : list B) a v k d : a < length l -> nth k (list_set l a v) d = if Nat.eqb a k then v else nth k l d.
Proof.
  intros L. rewrite !nth_nth_error, nth_error_list_set. destruct (Nat.eqb_spec a k) as [<-|N]; [|reflexivity]. rewrite (proj2 (Nat.ltb_lt _ _) L). reflexivity.
Qed.
Lemma ent_at {B} (l : list (list B)) h L : nth_error l h = Some L -> forall k, ent l h k = nth_error L k.
Proof. intros E k. unfold ent. rewrite E. reflexivity. Qed.

Lemma follows_write cs w a v : a < length (r_arrays w) -> follows cs w ->
  follows cs (mkR (tell v a (r_held w) (r_world w)) (list_set (r_arrays w) a v) (r_lists w) (r_held w) (r_held_ids w)).
Proof.
  intros La F. destruct (tell_spec v a (r_held w) (r_world w)) as (T1 & T2 & T3 & T4 & T5).
  apply (follows_upd cs w); cbn [r_world r_arrays r_lists r_held r_held_ids]; auto; [rewrite list_set_length; lia| |]; intros i o E.
  - destruct (ti_valid _ (fo_tidy _ _ F) i o E) as [_ V]. apply ent_list; [rewrite T2; exact V|]. intros k. rewrite T4, (ent_at _ _ _ (fo_set _ _ F i o E)), !nth_error_map.
    destruct (nth_error (sets_of i cs) k) as [[[js q] bt]|] eqn:Ek; [|reflexivity]. cbn. f_equal. rewrite nth_list_set by exact La.
    destruct (has a (HeldQ (py_set o) k) (r_held w)) eqn:Eh.
    + apply has_in in Eh. apply (fo_q _ _ F) in Eh. destruct Eh as (i' & o' & js' & bt' & E' & Es & Ek').
      assert (i' = i). { destruct (Nat.eq_dec i' i); [assumption|]. destruct (ti_own _ (fo_tidy _ _ F) i' i o' o E' E n). congruence. }
      subst i'. rewrite Ek in Ek'. inversion Ek'; subst. rewrite Nat.eqb_refl. reflexivity.
    + destruct (Nat.eqb_spec a q) as [<-|N]; [|reflexivity]. assert (I : In (a, HeldQ (py_set o) k) (r_held w)) by (apply (fo_q _ _ F); eauto 10).
      apply has_in in I. congruence.
  - destruct (ti_valid _ (fo_tidy _ _ F) i o E) as [V _]. apply ent_list; [rewrite T3; exact V|]. intros k. rewrite T5, (ent_at _ _ _ (fo_add _ _ F i o E)), !nth_error_map.
    destruct (nth_error (adds_of i cs) k) as [[[[n m] p] r]|] eqn:Ek; [|reflexivity]. cbn. rewrite nth_list_set by exact La. f_equal. f_equal.
    + destruct (has a (HeldPos (py_add o) k) (r_held w)) eqn:Eh.
      * apply has_in in Eh. apply (fo_pos _ _ F) in Eh. destruct Eh as (i' & o' & n' & m' & r' & E' & Es & Ek').
        assert (i' = i). { destruct (Nat.eq_dec i' i) as [|N]; [assumption|]. destruct (ti_own _ (fo_tidy _ _ F) i' i o' o E' E N). congruence. }
        subst i'. rewrite Ek in Ek'. inversion Ek'; subst. rewrite Nat.eqb_refl. reflexivity.
      * destruct (Nat.eqb_spec a p) as [<-|N]; [|reflexivity]. assert (I : In (a, HeldPos (py_add o) k) (r_held w)) by (apply (fo_pos _ _ F); eauto 11).
        apply has_in in I. congruence.
    + destruct (has a (HeldRpy (py_add o) k) (r_held w)) eqn:Eh.
      * apply has_in in Eh. apply (fo_rpy _ _ F) in Eh. destruct Eh as (i' & o' & n' & m' & r' & E' & Es & Ek').
        assert (i' = i). { destruct (Nat.eq_dec i' i) as [|N]; [assumption|]. destruct (ti_own _ (fo_tidy _ _ F) i' i o' o E' E N). congruence. }
        subst i'. rewrite Ek in Ek'. inversion Ek'; subst. cbn. rewrite nth_list_set, Nat.eqb_refl by exact La. reflexivity.
      * destruct r as [r|]; [|reflexivity]. cbn. rewrite nth_list_set by exact La. destruct (Nat.eqb_spec a r) as [<-|N]; [|reflexivity].
        assert (I : In (a, HeldRpy (py_add o) k) (r_held w)) by (apply (fo_rpy _ _ F); eauto 11). apply has_in in I. congruence.
Qed.
Lemma follows_write_list cs w a v : a < length (r_lists w) -> follows cs w ->
  follows cs (mkR (tell_ids v a (r_held_ids w) (r_world w)) (r_arrays w) (list_set (r_lists w) a v) (r_held w) (r_held_ids w)).
Proof.
  intros La F. destruct (tell_ids_spec v a (r_held_ids w) (r_world w)) as (T1 & T2 & T3 & T4).
  apply (follows_upd cs w); cbn [r_world r_arrays r_lists r_held r_held_ids]; auto; [rewrite T3; reflexivity|rewrite list_set_length; lia| |]; intros i o E.
  - destruct (ti_valid _ (fo_tidy _ _ F) i o E) as [_ V]. apply ent_list; [rewrite T2; exact V|]. intros k. rewrite T4, (ent_at _ _ _ (fo_set _ _ F i o E)), !nth_error_map.
    destruct (nth_error (sets_of i cs) k) as [[[js q] bt]|] eqn:Ek; [|reflexivity]. cbn. f_equal. rewrite nth_list_set by exact La.
    destruct (has_ids a (py_set o) k (r_held_ids w)) eqn:Eh.
    + apply has_ids_in in Eh. apply (fo_ids _ _ F) in Eh. destruct Eh as (i' & o' & js' & bt' & E' & Es & Ek').
      assert (i' = i). { destruct (Nat.eq_dec i' i) as [|N]; [assumption|]. destruct (ti_own _ (fo_tidy _ _ F) i' i o' o E' E N). congruence. }
      subst i'. rewrite Ek in Ek'. inversion Ek'; subst. rewrite Nat.eqb_refl. reflexivity.
    + destruct (Nat.eqb_spec a js) as [<-|N]; [|reflexivity]. assert (I : In (a, (py_set o, k)) (r_held_ids w)) by (apply (fo_ids _ _ F); eauto 10).
      apply has_ids_in in I. congruence.
  - rewrite T3. rewrite (add_now_same w) by auto. exact (fo_add _ _ F i o E).
Qed.

Lemma follows_new cs w text w' r : follows cs w -> py_init tinyxml text (r_world w) = (w', r) ->
  follows cs (mkR w' (r_arrays w) (r_lists w) (r_held w) (r_held_ids w)).
Proof.
  intros F E. unfold py_init in E.
  assert (Same : follows cs (mkR (r_world w) (r_arrays w) (r_lists w) (r_held w) (r_held_ids w))) by (destruct w; exact F).
  destruct (String.eqb text ""); [inversion E; subst; exact Same|].
  destruct (ctor tinyxml text) as [m|e|u|]; inversion E; subst; try exact Same. clear E Same.
  set (o1 := mkPy text (Some m) (length (heap_add (r_world w))) (length (heap_set (r_world w)))).
  destruct (fo_none _ _ F (length (objs (r_world w)))) as [N1 N2]; [apply nth_error_None; lia|].
  assert (K : forall i o, nth_error (objs (r_world w) ++ [o1]) i = Some o -> nth_error (objs (r_world w)) i = Some o \/ i = length (objs (r_world w)) /\ o = o1).
  { intros i o E. destruct (Nat.lt_ge_cases i (length (objs (r_world w)))) as [L|L]; [rewrite nth_error_app1 in E by exact L; auto|].
    right. rewrite nth_error_app2 in E by exact L. destruct (i - length (objs (r_world w))) as [|d] eqn:Ed; [|destruct d; discriminate E]. cbn in E. split; [lia|congruence]. }
  assert (K' : forall i o, nth_error (objs (r_world w)) i = Some o -> nth_error (objs (r_world w) ++ [o1]) i = Some o).
  { intros i o E. rewrite nth_error_app1; [exact E|eapply nth_error_lt; exact E]. }
  destruct F as [H1 H2 H3 H4 H5 H6 H7 H8 H9 H10]. pose proof H1 as [V O].
  constructor; cbn [r_world r_arrays r_lists r_held r_held_ids objs heap_add heap_set].
  - constructor; cbn [objs heap_add heap_set].
    + intros i o E. rewrite !app_length. cbn [length]. destruct (K i o E) as [E'|[-> ->]]; [destruct (V i o E'); lia|cbn; lia].
    + intros i j o o' E E' N. destruct (K i o E) as [Ei|[-> ->]], (K j o' E') as [Ej|[-> ->]]; cbn [py_add py_set o1]; [eauto| | |lia].
      * destruct (V i o Ei). lia.
      * destruct (V j o' Ej). lia.
  - intros i o E. destruct (K i o E) as [E'|[-> ->]].
    + rewrite nth_error_app1 by (destruct (V i o E'); assumption). exact (H2 i o E').
    + rewrite N1. cbn [o1 py_set]. rewrite nth_error_app2, Nat.sub_diag by lia. reflexivity.
  - intros i o E. destruct (K i o E) as [E'|[-> ->]].
    + rewrite nth_error_app1 by (destruct (V i o E'); assumption). exact (H3 i o E').
    + rewrite N2. cbn [o1 py_add]. rewrite nth_error_app2, Nat.sub_diag by lia. reflexivity.
  - intros i E. apply H4. apply nth_error_None in E. apply nth_error_None. rewrite app_length in E. lia.
  - intros a h k. rewrite H5. split; intros (i & o & x & y & E & P & Q); [eauto 10|].
    destruct (K i o E) as [E'|[-> ->]]; [eauto 10|]. rewrite N1 in Q. destruct k; discriminate Q.
  - intros a h k. rewrite H6. split; intros (i & o & x & y & E & P & Q); [eauto 10|].
    destruct (K i o E) as [E'|[-> ->]]; [eauto 10|]. rewrite N1 in Q. destruct k; discriminate Q.
  - intros a h k. rewrite H7. split; intros (i & o & x & y & z & E & P & Q); [eauto 11|].
    destruct (K i o E) as [E'|[-> ->]]; [eauto 11|]. rewrite N2 in Q. destruct k; discriminate Q.
  - intros a h k. rewrite H8. split; intros (i & o & x & y & z & E & P & Q); [eauto 11|].
    destruct (K i o E) as [E'|[-> ->]]; [eauto 11|]. rewrite N2 in Q. destruct k; discriminate Q.
  - exact H9.
  - exact H10.
Qed.

Lemma nth_error_snoc {B} (l : list B) b k : nth_error (l ++ [b]) k = if Nat.eqb k (length l) then Some b else nth_error l k.
Proof.
  destruct (Nat.eqb_spec k (length l)) as [->|N]; [rewrite nth_error_app2, Nat.sub_diag by lia; reflexivity|].
  destruct (Nat.lt_ge_cases k (length l)) as [L|L]; [apply nth_error_app1; exact L|].
  rewrite (proj2 (nth_error_None l k) L). apply nth_error_None. rewrite app_length. cbn. lia.
Qed.
Lemma sets_of_snoc i cs j js q bt : sets_of i (cs ++ [R_set_q j js q bt]) = if Nat.eqb j i then sets_of i cs ++ [(js, q, bt)] else sets_of i cs.
Proof. rewrite sets_of_app. cbn. destruct (Nat.eqb j i); [reflexivity|apply app_nil_r]. Qed.
Lemma adds_of_snoc i cs j n k p r : adds_of i (cs ++ [R_add_new_link j n k p r]) = if Nat.eqb j i then adds_of i cs ++ [(n, k, p, r)] else adds_of i cs.
Proof. rewrite adds_of_app. cbn. destruct (Nat.eqb j i); [reflexivity|apply app_nil_r]. Qed.

Lemma follows_set cs w i js q bt vj vq w' r : follows cs w -> nth_error (r_lists w) js = Some vj -> nth_error (r_arrays w) q = Some vq ->
  py_set_q i vj vq bt (r_world w) = (w', r) -> fine r ->
  follows (cs ++ [R_set_q i js q bt]) (hold w w' [(q, HeldQ (fst (next_set (r_world w) i)) (snd (next_set (r_world w) i)))] [(js, next_set (r_world w) i)]).
Proof.
  intros F Ej Eq E Fi. unfold py_set_q in E. unfold bind in E at 1. unfold append_set in E.
  destruct (nth_error (objs (r_world w)) i) as [o|] eqn:Eo; [|inversion E; subst; destruct Fi].
  set (w1 := mkW (heap_add (r_world w)) (hist_append (heap_set (r_world w)) (py_set o) (mkSet vj vq bt)) (objs (r_world w))) in *.
  assert (Q : silent w1 w') by exact (quiet_set_rest i vj vq bt w1 w' r E).
  set (h := r_held w ++ [(q, HeldQ (fst (next_set (r_world w) i)) (snd (next_set (r_world w) i)))]). set (t := r_held_ids w ++ [(js, next_set (r_world w) i)]).
  apply (follows_silent _ (mkR w1 (r_arrays w) (r_lists w) h t) w' Q). clear E Fi Q.
  assert (En : next_set (r_world w) i = (py_set o, length (sets_of i cs))).
  { unfold next_set. rewrite Eo. rewrite nth_nth_error, (fo_set _ _ F i o Eo), map_length. reflexivity. }
  subst h t. rewrite En. cbn [fst snd].
  pose proof (fo_set _ _ F i o Eo) as Hs. destruct F as [H1 H2 H3 H4 H5 H6 H7 H8 H9 H10]. pose proof H1 as [V O].
  assert (Ls : js < length (r_lists w)) by (eapply nth_error_lt; exact Ej). assert (La : q < length (r_arrays w)) by (eapply nth_error_lt; exact Eq).
  assert (Ad : forall i', adds_of i' (cs ++ [R_set_q i js q bt]) = adds_of i' cs) by (intros; rewrite adds_of_app; cbn; apply app_nil_r).
  constructor; cbn [r_world r_arrays r_lists r_held r_held_ids objs heap_add heap_set w1].
  - constructor; cbn [objs heap_add heap_set w1]; [|exact O]. rewrite hist_append_length. exact V.
  - intros i' o' E'. rewrite sets_of_snoc. destruct (Nat.eqb_spec i i') as [<-|N].
    + rewrite Eo in E'. inversion E'; subst o'. rewrite map_app. rewrite (hist_append_at _ _ _ _ Hs). cbn. f_equal. f_equal. f_equal.
      rewrite !nth_nth_error, Ej, Eq. reflexivity.
    + rewrite hist_append_other; [exact (H2 i' o' E')|]. destruct (O i' i o' o E' Eo); congruence.
  - intros i' o' E'. rewrite Ad. exact (H3 i' o' E').
  - intros i' E'. rewrite Ad, sets_of_snoc. destruct (Nat.eqb_spec i i') as [<-|N]; [congruence|auto].
  - intros a h k. rewrite in_app_iff, H5. split.
    + intros [(i' & o' & x & y & E' & P & Q)|[X|[]]].
      * exists i', o', x, y. split; [exact E'|]. split; [exact P|]. rewrite sets_of_snoc. destruct (Nat.eqb i i'); [|exact Q].
        rewrite nth_error_app1 by (eapply nth_error_lt; exact Q). exact Q.
      * inversion X; subst. exists i, o, js, bt. split; [exact Eo|]. split; [reflexivity|]. rewrite sets_of_snoc, Nat.eqb_refl, nth_error_snoc, Nat.eqb_refl. reflexivity.
    + intros (i' & o' & x & y & E' & P & Q). rewrite sets_of_snoc in Q. destruct (Nat.eqb_spec i i') as [<-|N]; [|left; eauto 10].
      rewrite nth_error_snoc in Q. destruct (Nat.eqb_spec k (length (sets_of i cs))) as [->|Nk]; [|left; eauto 10]. right. left. inversion Q; subst. congruence.
  - intros a h k. rewrite in_app_iff, H6. split.
    + intros [(i' & o' & x & y & E' & P & Q)|[X|[]]].
      * exists i', o', x, y. split; [exact E'|]. split; [exact P|]. rewrite sets_of_snoc. destruct (Nat.eqb i i'); [|exact Q].
        rewrite nth_error_app1 by (eapply nth_error_lt; exact Q). exact Q.
      * inversion X; subst. exists i, o, q, bt. split; [exact Eo|]. split; [reflexivity|]. rewrite sets_of_snoc, Nat.eqb_refl, nth_error_snoc, Nat.eqb_refl. reflexivity.
    + intros (i' & o' & x & y & E' & P & Q). rewrite sets_of_snoc in Q. destruct (Nat.eqb_spec i i') as [<-|N]; [|left; eauto 10].
      rewrite nth_error_snoc in Q. destruct (Nat.eqb_spec k (length (sets_of i cs))) as [->|Nk]; [|left; eauto 10]. right. left. inversion Q; subst. congruence.
  - intros a h k. setoid_rewrite Ad. rewrite in_app_iff, H7. split; [intros [X|[X|[]]]; [exact X|inversion X]|auto].
  - intros a h k. setoid_rewrite Ad. rewrite in_app_iff, H8. split; [intros [X|[X|[]]]; [exact X|inversion X]|auto].
  - intros i' a b c I. rewrite sets_of_snoc in I. destruct (Nat.eqb i i'); [|eauto]. apply in_app_or in I. destruct I as [I|[X|[]]]; [eauto|]. inversion X; subst. auto.
  - intros i' n k p r' I. rewrite Ad in I. eauto.
Qed.

Lemma follows_link cs w i n k p rp vp vr w' r : follows cs w -> nth_error (r_arrays w) p = Some vp ->
  match rp with None => Some None | Some b => option_map Some (nth_error (r_arrays w) b) end = Some vr ->
  py_add_new_link i n k (vec3 vp) (option_map vec3 vr) (r_world w) = (w', r) -> fine r ->
  follows (cs ++ [R_add_new_link i n k p rp])
    (hold w w' ((p, HeldPos (fst (next_add (r_world w) i)) (snd (next_add (r_world w) i))) ::
                match rp with Some b => [(b, HeldRpy (fst (next_add (r_world w) i)) (snd (next_add (r_world w) i)))] | None => [] end) []).
Proof.
  intros F Ep Er E Fi. unfold py_add_new_link in E. unfold bind in E at 1. unfold append_add in E.
  destruct (nth_error (objs (r_world w)) i) as [o|] eqn:Eo; [|inversion E; subst; destruct Fi].
  set (w1 := mkW (hist_append (heap_add (r_world w)) (py_add o) (mkAdd n k (vec3 vp) (option_map vec3 vr))) (heap_set (r_world w)) (objs (r_world w))) in *.
  assert (Q : silent w1 w') by exact (quiet_robot i _ w1 w' r E).
  assert (En : next_add (r_world w) i = (py_add o, length (adds_of i cs))).
  { unfold next_add. rewrite Eo. rewrite nth_nth_error, (fo_add _ _ F i o Eo), map_length. reflexivity. }
  rewrite En. cbn [fst snd]. set (u := (p, HeldPos (py_add o) (length (adds_of i cs))) :: match rp with Some b => [(b, HeldRpy (py_add o) (length (adds_of i cs)))] | None => [] end).
  unfold hold. rewrite app_nil_r. apply (follows_silent _ (mkR w1 (r_arrays w) (r_lists w) (r_held w ++ u) (r_held_ids w)) w' Q). clear E Fi Q.
  pose proof (fo_add _ _ F i o Eo) as Hs. destruct F as [H1 H2 H3 H4 H5 H6 H7 H8 H9 H10]. pose proof H1 as [V O].
  assert (La : p < length (r_arrays w)) by (eapply nth_error_lt; exact Ep).
  assert (Lb : forall b, rp = Some b -> b < length (r_arrays w)).
  { intros b ->. destruct (nth_error (r_arrays w) b) eqn:Eb; [|discriminate Er]. eapply nth_error_lt; exact Eb. }
  assert (Ev : option_map (fun b => vec3 (nth b (r_arrays w) [])) rp = option_map vec3 vr).
  { destruct rp as [b|]; [|inversion Er; reflexivity]. cbn. rewrite nth_nth_error. destruct (nth_error (r_arrays w) b); inversion Er; reflexivity. }
  assert (Ad : forall i', sets_of i' (cs ++ [R_add_new_link i n k p rp]) = sets_of i' cs) by (intros; rewrite sets_of_app; cbn; apply app_nil_r).
  constructor; cbn [r_world r_arrays r_lists r_held r_held_ids objs heap_add heap_set w1].
  - constructor; cbn [objs heap_add heap_set w1]; [|exact O]. rewrite hist_append_length. exact V.
  - intros i' o' E'. rewrite Ad. exact (H2 i' o' E').
  - intros i' o' E'. rewrite adds_of_snoc. destruct (Nat.eqb_spec i i') as [<-|N].
    + rewrite Eo in E'. inversion E'; subst o'. rewrite map_app. rewrite (hist_append_at _ _ _ _ Hs). cbn. f_equal. f_equal. f_equal.
      rewrite Ev, nth_nth_error, Ep. reflexivity.
    + rewrite hist_append_other; [exact (H3 i' o' E')|]. destruct (O i' i o' o E' Eo); congruence.
  - intros i' E'. rewrite Ad, adds_of_snoc. destruct (Nat.eqb_spec i i') as [<-|N]; [congruence|auto].
  - intros a h j. setoid_rewrite Ad. rewrite in_app_iff, H5. split; [|auto]. intros [X|X]; [exact X|]. exfalso. destruct X as [X|X]; [inversion X|]. destruct rp; [destruct X as [X|[]]; inversion X|destruct X].
  - intros a h j. setoid_rewrite Ad. apply H6.
  - intros a h j. rewrite in_app_iff, H7. split.
    + intros [(i' & o' & x & y & z & E' & P & Q)|X].
      * exists i', o', x, y, z. split; [exact E'|]. split; [exact P|]. rewrite adds_of_snoc. destruct (Nat.eqb i i'); [|exact Q].
        rewrite nth_error_app1 by (eapply nth_error_lt; exact Q). exact Q.
      * destruct X as [X|X]; [|exfalso; destruct rp; [destruct X as [X|[]]; inversion X|destruct X]].
        inversion X; subst. exists i, o, n, k, rp. split; [exact Eo|]. split; [reflexivity|]. rewrite adds_of_snoc, Nat.eqb_refl, nth_error_snoc, Nat.eqb_refl. reflexivity.
    + intros (i' & o' & x & y & z & E' & P & Q). rewrite adds_of_snoc in Q. destruct (Nat.eqb_spec i i') as [<-|N]; [|left; eauto 11].
      rewrite nth_error_snoc in Q. destruct (Nat.eqb_spec j (length (adds_of i cs))) as [->|Nk]; [|left; eauto 11]. right. left. inversion Q; subst. congruence.
  - intros a h j. rewrite in_app_iff, H8. split.
    + intros [(i' & o' & x & y & z & E' & P & Q)|X].
      * exists i', o', x, y, z. split; [exact E'|]. split; [exact P|]. rewrite adds_of_snoc. destruct (Nat.eqb i i'); [|exact Q].
        rewrite nth_error_app1 by (eapply nth_error_lt; exact Q). exact Q.
      * destruct X as [X|X]; [inversion X|]. destruct rp as [b|]; [destruct X as [X|[]]|destruct X].
        inversion X; subst. exists i, o, n, k, p. split; [exact Eo|]. split; [reflexivity|]. rewrite adds_of_snoc, Nat.eqb_refl, nth_error_snoc, Nat.eqb_refl. reflexivity.
    + intros (i' & o' & x & y & z & E' & P & Q). rewrite adds_of_snoc in Q. destruct (Nat.eqb_spec i i') as [<-|N]; [|left; eauto 11].
      rewrite nth_error_snoc in Q. destruct (Nat.eqb_spec j (length (adds_of i cs))) as [->|Nk]; [|left; eauto 11]. right. right. inversion Q; subst. left. congruence.
  - intros i' a b c I. rewrite Ad in I. eauto.
  - intros i' n' k' p' r' I. rewrite adds_of_snoc in I. destruct (Nat.eqb i i'); [|eauto]. apply in_app_or in I. destruct I as [I|[X|[]]]; [eauto|]. inversion X; subst. auto.
Qed.

Lemma follows_step cs w c w' r : direct c -> follows cs w -> r_exec tinyxml c w = (w', r) -> fine r -> follows (cs ++ [c]) w'.
Proof.
  intros D F E Fi.
  assert (Oth : other c -> follows cs w' -> follows (cs ++ [c]) w').
  { intros Ho. apply follows_ext; intros; [apply other_sets|apply other_adds]; exact Ho. }
  destruct c as [c|v|v|i js q bt|i n k p rp|a v|l v]; cbn [r_exec] in E.
  - apply Oth; [exact Logic.I|]. destruct (py_exec tinyxml c (r_world w)) as [u x] eqn:Ex. inversion E; subst. unfold hold. rewrite !app_nil_r.
    destruct c; cbn [direct] in D; try (apply follows_silent; [exact (quiet_exec _ D _ _ _ Ex)|exact F]).
    cbn [py_exec] in Ex. unfold pdrop, bind in Ex. destruct (py_init tinyxml text (r_world w)) as [u' y] eqn:Ey.
    pose proof (follows_new cs w _ u' y F Ey) as K. destruct y; inversion Ex; subst; exact K.
  - apply Oth; [exact Logic.I|]. inversion E; subst. apply follows_array, F.
  - apply Oth; [exact Logic.I|]. inversion E; subst. apply follows_list, F.
  - destruct (nth_error (r_lists w) js) as [vj|] eqn:Ej; [|inversion E; subst; destruct Fi]. destruct (nth_error (r_arrays w) q) as [vq|] eqn:Eq; [|inversion E; subst; destruct Fi].
    destruct (py_set_q i vj vq bt (r_world w)) as [u x] eqn:Ex. inversion E; subst. exact (follows_set cs w i js q bt vj vq u r F Ej Eq Ex Fi).
  - destruct (nth_error (r_arrays w) p) as [vp|] eqn:Ep; [|inversion E; subst; destruct Fi].
    destruct (match rp with None => Some None | Some b => option_map Some (nth_error (r_arrays w) b) end) as [vr|] eqn:Er; [|inversion E; subst; destruct Fi].
    destruct (_ && _); [|inversion E; subst; destruct Fi].
    destruct (py_add_new_link i n k (vec3 vp) (option_map vec3 vr) (r_world w)) as [u x] eqn:Ex. inversion E; subst. exact (follows_link cs w i n k p rp vp vr u r F Ep Er Ex Fi).
  - apply Oth; [exact Logic.I|]. destruct (nth_error (r_arrays w) a) as [old|] eqn:Ea; [|inversion E; subst; destruct Fi].
    destruct (Nat.eqb (length v) (length old)); inversion E; subst; [|exact F]. apply follows_write; [eapply nth_error_lt; exact Ea|exact F].
  - apply Oth; [exact Logic.I|]. destruct (nth_error (r_lists w) l) as [old|] eqn:Ea; inversion E; subst; [|destruct Fi].
    apply follows_write_list; [eapply nth_error_lt; exact Ea|exact F].
Qed.
Lemma follows_none : follows [] r_none.
Proof.
  constructor; cbn [r_none r_world r_held r_held_ids objs].
  - exact tidy_none.
  - intros [|i] o E; discriminate E.
  - intros [|i] o E; discriminate E.
  - split; reflexivity.
  - intros a h k. split; [intros []|]. intros (i & o & x & y & E & _). destruct i; discriminate E.
  - intros a h k. split; [intros []|]. intros (i & o & x & y & E & _). destruct i; discriminate E.
  - intros a h k. split; [intros []|]. intros (i & o & x & y & z & E & _). destruct i; discriminate E.
  - intros a h k. split; [intros []|]. intros (i & o & x & y & z & E & _). destruct i; discriminate E.
  - intros i js q bt [].
  - intros i n k p r [].
Qed.
Lemma follows_run ds : forall cs w w', follows cs w -> (forall c, In c ds -> direct c) -> r_run tinyxml ds w = Some w' -> follows (cs ++ ds) w'.
Proof.
  induction ds as [|c ds IH]; intros cs w w' F D E; [cbn in E; rewrite app_nil_r; congruence|].
  cbn [r_run] in E. destruct (r_exec tinyxml c w) as [w1 x] eqn:Ex.
  assert (Fx : fine x) by (destruct x; try discriminate E; exact Logic.I).
  pose proof (follows_step cs w c w1 x (D c (or_introl eq_refl)) F Ex Fx) as F1.
  replace (cs ++ c :: ds) with ((cs ++ [c]) ++ ds) by (rewrite <- app_assoc; reflexivity).
  apply (IH _ w1); [exact F1|intros d I; apply D; right; exact I|]. destruct x; try discriminate E; exact E.
Qed.
Lemma follows_dumps cs w i o : follows cs w -> nth_error (objs (r_world w)) i = Some o ->
  py_dumps i (r_world w) = (r_world w, Ok (mkPickle (py_xml o) (map (add_now w) (adds_of i cs)) (map (set_now w) (sets_of i cs)))).
Proof.
  intros F E. unfold py_dumps. rewrite E. rewrite !nth_nth_error. rewrite (fo_set _ _ F i o E), (fo_add _ _ F i o E). reflexivity.
Qed.
End PfPyRef.
