(** The waypoint loops of the wrapper: what ends up in which row. *)
From Coq Require Import String List Arith Lia Bool.
From Verif Require Import Base Num Pose DataStructure Urdf Kin Wrapper Spec_Robot Spec_Hist Spec_Load Spec_Jac
  Pf_Base Pf_Data Inv Pf_FK Pf_Frame Pf_Rp Rep Pf_Ops Pf_Name Pf_Reach Pf_Jac Pf_Safe Pf_Pose Pf_Local.
Import ListNotations.
Local Open Scope m_scope.

Section Wrap.
Context `{A : Arith}.

(** ** Waypoints overwrite each other *)
Lemma assign_assign jids q q' v : length jids <= length q -> (forall j, In j jids -> j < length v) ->
  assign jids q (assign jids q' v) = assign jids q v.
Proof.
  intros L H. apply list_ext. intros k.
  destruct (in_dec Nat.eq_dec k jids) as [I|N].
  - (* the last occurrence decides *)
    assert (X : forall w, length w = length v -> nth_error (assign jids q w) k = nth_error (assign jids q v) k).
    { intros w Lw. clear q'. revert q L I w v H Lw. induction jids as [|j jids IH]; intros q L I w v H Lw; [easy|].
      destruct q as [|a q]; [simpl in L; lia|]. unfold assign. simpl.
      change (nth_error (assign jids q (list_set w j a)) k = nth_error (assign jids q (list_set v j a)) k).
      simpl in L. destruct (in_dec Nat.eq_dec k jids) as [Ik|Nk].
      - apply IH; auto; try lia; rewrite ?list_set_length; auto. intros j' Ij'. apply H. now right.
      - destruct I as [->|I]; [|easy]. rewrite !assign_other by auto.
        assert (k < length v) by (apply H; now left). rewrite !nth_error_list_set_eq; auto. lia. }
    apply X. apply assign_length.
  - now rewrite !assign_other by auto.
Qed.

Lemma at_waypoint_twice jids wb q q' s : length jids <= length q -> (forall j, In j jids -> j < length (as_angles s)) ->
  at_waypoint jids wb q (at_waypoint jids wb q' s) = at_waypoint jids wb q s.
Proof. intros L H. unfold at_waypoint. cbn [as_added as_angles as_base]. rewrite assign_assign by auto. destruct wb; reflexivity. Qed.

(** ** A loop over waypoints, each starting from a cleared cache *)
Lemma waypoint_inv {C} (R : Robot) root sorted jsorted ms mass jids wb cl (g : nat -> C -> M KM C) qs s
  (Inv : nat -> C -> Prop) :
  (wb || cl)%bool = true -> (forall i acc, query (g i acc)) ->
  (forall i q acc acc' m1 m2, nth_error qs i = Some q -> Rep R root sorted jsorted ms mass (at_waypoint jids wb q s) m1 -> Good m1 ->
     (forall j, In j jids -> j < length (joints m1)) -> length jids <= length q -> (wb = true -> 6 <= length q) ->
     Inv i acc -> g i acc m1 = (m2, Ok acc') -> Inv (S i) acc') ->
  forall m m' acc acc', Rep R root sorted jsorted ms mass s m ->
  for_each (enumerate qs) acc (fun iq acc => goto_waypoint jids (snd iq) wb cl ;;; g (fst iq) acc) m = (m', Ok acc') ->
  Inv 0 acc -> Inv (length qs) acc'.
Proof.
  intros Hcl Q Step m m' acc acc' HR X I0.
  enough (Y : forall rest k s1 m1 acc1, Rep R root sorted jsorted ms mass s1 m1 ->
     (s1 = s \/ exists q, s1 = at_waypoint jids wb q s) -> length (as_angles s1) = length (as_angles s) ->
     k + length rest = length qs -> (forall i q, nth_error rest i = Some q -> nth_error qs (k + i) = Some q) ->
     Inv k acc1 ->
     for_each (combine (seq k (length rest)) rest) acc1 (fun iq acc => goto_waypoint jids (snd iq) wb cl ;;; g (fst iq) acc) m1 = (m', Ok acc') ->
     Inv (length qs) acc').
  { apply (Y qs 0 s m acc); auto. }
  induction rest as [|q rest IH]; intros k s1 m1 acc1 H1 Hs Ls Lk Hn I1 E.
  - simpl in *. inversion E; subst. now replace (length qs) with k by lia.
  - simpl length in *. simpl seq in E. simpl combine in E. rewrite for_each_cons in E.
    apply bind_inv_ok in E. destruct E as (m3 & acc3 & E & E3). cbn [fst snd] in E.
    apply bind_inv_ok in E. destruct E as (m2 & [] & E1 & E2).
    pose proof (goto_ok _ _ _ _ _ _ E1) as (_ & F & L & Lb).
    destruct (goto_Rep _ _ _ _ _ _ _ _ _ _ _ _ _ H1 E1) as [H2 C2]. specialize (C2 Hcl).
    assert (Fa : forall j, In j jids -> j < length (as_angles s)).
    { intros j Ij. rewrite <- Ls, <- (rep_angles _ _ _ _ _ _ _ _ H1). auto. }
    assert (Es : at_waypoint jids wb q s1 = at_waypoint jids wb q s).
    { destruct Hs as [->|(q' & ->)]; auto. apply at_waypoint_twice; auto. }
    rewrite Es in H2. assert (G2 : Good m2) by (split; auto; apply H2).
    destruct (Q k acc1 m2) as [S2 _]. rewrite E2 in S2. simpl in S2.
    apply (IH (S k) (at_waypoint jids wb q s) m3 acc3); auto.
    + exact (Rep_scratch _ _ _ _ _ _ _ _ _ H2 S2).
    + eauto.
    + simpl. apply assign_length.
    + lia.
    + intros i q' Ei. replace (S k + i) with (k + S i) by lia. apply Hn. exact Ei.
    + eapply (Step k q); eauto.
      * rewrite <- (Nat.add_0_r k). apply Hn. reflexivity.
      * intros j Ij. rewrite <- (wf_angles m2), (rep_angles _ _ _ _ _ _ _ _ H2) by apply H2. simpl. rewrite assign_length. auto.
Qed.

(** ** Writing consecutive blocks of rows *)
Lemma firstn_list_set' {B} (l : list B) i e : i < length l -> firstn (S i) (list_set l i e) = firstn i l ++ [e].
Proof.
  revert i; induction l as [|x l IH]; intros i L; simpl in L; [lia|]. destruct i; simpl; auto. f_equal. apply IH. lia.
Qed.

Lemma skipn_skipn' {B} a b (l : list B) : skipn a (skipn b l) = skipn (a + b) l.
Proof.
  revert a l; induction b as [|b IH]; intros a l; [now rewrite Nat.add_0_r|]. destruct l as [|x l]; [now rewrite !skipn_nil|].
  rewrite Nat.add_succ_r. simpl. apply IH.
Qed.

Lemma list_set_app {B} (l r : list B) x y : list_set (l ++ x :: r) (length l) y = l ++ y :: r.
Proof. induction l; simpl; congruence. Qed.

Lemma mat_set_row_gen r : forall vs c0 P P', mat_set_row r c0 vs P = Ok P' ->
  forall row, nth_error P r = Some row -> c0 + length vs = length row ->
  P' = list_set P r (firstn c0 row ++ vs).
Proof.
  induction vs as [|v vs IH]; intros c0 P P' E row Er L; simpl in *.
  - inversion E; subst. rewrite Nat.add_0_r in L. subst c0. rewrite firstn_all, app_nil_r. symmetry. now apply list_set_same.
  - assert (Lr : r < length P) by (eapply nth_error_lt; eauto).
    assert (Em : mat_set r c0 v P = Ok (list_set P r (list_set row c0 v))).
    { unfold mat_set, vget. rewrite Er. cbn [rbind]. rewrite vset_lt by lia. cbn [rbind]. now apply vset_lt. }
    rewrite Em in E. cbn [rbind] in E.
    apply (IH (S c0) _ _) with (row := list_set row c0 v) in E.
    + subst P'. rewrite list_set_twice. f_equal. rewrite firstn_list_set' by lia. now rewrite <- app_assoc.
    + now apply nth_error_list_set_eq.
    + rewrite list_set_length. lia.
Qed.

Lemma mat_set_row_app w vs dn rest P' : length vs = w -> 0 < w -> (forall row, In row rest -> length row = w) ->
  mat_set_row (length dn) 0 vs (dn ++ rest) = Ok P' -> 0 < length rest /\ P' = dn ++ [vs] ++ skipn 1 rest.
Proof.
  intros L Lw Hr E. destruct rest as [|row rest].
  - exfalso. destruct vs as [|v vs]; [simpl in L; lia|]. simpl in E. unfold mat_set in E.
    rewrite app_nil_r in E. unfold vget in E. rewrite (proj2 (nth_error_None dn (length dn))) in E by lia. discriminate.
  - split; [simpl; lia|]. rewrite (mat_set_row_gen _ _ _ _ _ E row).
    + simpl. apply list_set_app.
    + rewrite nth_error_app2, Nat.sub_diag by lia. reflexivity.
    + simpl. rewrite (Hr row) by now left. auto.
Qed.

Lemma mat_set_block_app B : forall dn rest J', mat_set_block (length dn) B (dn ++ rest) = Ok J' ->
  length B <= length rest /\ J' = dn ++ B ++ skipn (length B) rest.
Proof.
  induction B as [|row B IH]; intros dn rest J' E; simpl in *.
  - inversion E. split; [lia|reflexivity].
  - destruct rest as [|r0 rest].
    + rewrite vset_ub in E by (rewrite app_nil_r; lia). discriminate.
    + rewrite vset_lt in E by (rewrite app_length; simpl; lia). cbn [rbind] in E. rewrite list_set_app in E.
      specialize (IH (dn ++ [row]) rest J'). rewrite app_length in IH. simpl length in IH. rewrite Nat.add_1_r in IH.
      rewrite <- app_assoc in IH. destruct (IH E) as [L ->]. split; [simpl; lia|]. now rewrite <- app_assoc.
Qed.

Lemma block_loop {B Y Row} (f : nat * B -> M KM Y) (blk : Y -> list Row) (wr : nat -> Y -> list Row -> res (list Row))
  (w base : nat) (at_ : nat -> nat) (okr : list Row -> Prop) (Q : nat -> B -> Y -> Prop) (I : KM -> Prop) :
  (forall k, at_ k = base + k * w) ->
  (forall ib m1 m2 y, I m1 -> f ib m1 = (m2, Ok y) -> I m2 /\ Q (fst ib) (snd ib) y) ->
  (forall i b y dn rest P', Q i b y -> okr rest -> wr (length dn) y (dn ++ rest) = Ok P' ->
     length (blk y) = w /\ P' = dn ++ blk y ++ skipn w rest /\ w <= length rest /\ okr (skipn w rest)) ->
  forall l k dn rest m m' P', I m -> okr rest -> length dn = base + k * w ->
  for_each (combine (seq k (length l)) l) (dn ++ rest) (fun ib P => y <- f ib ;; lift (wr (at_ (fst ib)) y P)) m = (m', Ok P') ->
  I m' /\ exists ys, length ys = length l /\ (forall i b y, nth_error l i = Some b -> nth_error ys i = Some y -> Q (k + i) b y) /\
    (forall y, In y ys -> length (blk y) = w) /\
    length l * w <= length rest /\ P' = dn ++ concat (map blk ys) ++ skipn (length l * w) rest /\ okr (skipn (length l * w) rest).
Proof.
  intros Ha Hf Hw. induction l as [|b l IH]; intros k dn rest m m' P' Im Or Ld E.
  - simpl in E. inversion E; subst. split; auto. exists []. simpl. repeat split; auto; try lia; try tauto. intros [|i]; discriminate.
  - simpl length in *. simpl seq in E. simpl combine in E. rewrite for_each_cons in E.
    apply bind_inv_ok in E. destruct E as (m1 & P1 & E1 & E2). apply bind_inv_ok in E1. destruct E1 as (m0 & y & E0 & E1).
    apply lift_inv in E1. destruct E1 as [-> E1]. cbn [fst] in E1. destruct (Hf _ _ _ _ Im E0) as [I0 Qy]. cbn [fst snd] in Qy.
    rewrite Ha, <- Ld in E1. destruct (Hw _ _ _ _ _ _ Qy Or E1) as (Lb & EP & Lr & Or').
    subst P1. rewrite app_assoc in E2.
    destruct (IH (S k) (dn ++ blk y) (skipn w rest) m0 m' P' I0 Or') as (Im' & ys & Ly & HQ & Hbl & Lr' & EP & Or'').
    { rewrite app_length, Ld, Lb. simpl. lia. }
    { exact E2. }
    split; auto. exists (y :: ys). rewrite skipn_length in Lr'. rewrite skipn_skipn' in *. 
    replace (length l * w + w) with (S (length l) * w) in * by lia. repeat split; auto.
    + simpl; congruence.
    + intros [|i] b' y' Eb Ey; simpl in Eb, Ey.
      * inversion Eb; inversion Ey; subst. now rewrite Nat.add_0_r.
      * replace (k + S i) with (S k + i) by lia. eauto.
    + intros y' [<-|Iy]; auto.
    + simpl. lia.
    + rewrite EP. simpl. now rewrite <- !app_assoc.
Qed.

(** block [k] of a concatenation of blocks of equal size *)
Lemma concat_block {Row} (bs : list (list Row)) w : (forall b, In b bs -> length b = w) ->
  forall k b tl, nth_error bs k = Some b -> firstn w (skipn (k * w) (concat bs ++ tl)) = b.
Proof.
  intros H. induction bs as [|b0 bs IH]; intros [|k] b tl E; simpl in E; try discriminate.
  - inversion E; subst. simpl. rewrite <- app_assoc. rewrite firstn_app, (H b) by (now left).
    rewrite Nat.sub_diag. simpl. rewrite app_nil_r. rewrite <- (H b) by now left. apply firstn_all.
  - simpl concat. rewrite <- app_assoc. replace (S k * w) with (w + k * w) by lia.
    rewrite <- (H b0) at 2 by now left. rewrite skipn_app.
    rewrite skipn_all2 by (rewrite (H b0) by (now left); lia). simpl.
    replace (length b0 + k * w - length b0) with (k * w) by lia. apply IH; auto. intros; apply H; now right.
Qed.

Lemma concat_block_length {Row} (bs : list (list Row)) w : (forall b, In b bs -> length b = w) -> length (concat bs) = length bs * w.
Proof. intros H. induction bs as [|b bs IH]; simpl; auto. rewrite app_length, (H b), IH; auto; [|now left]. intros; apply H; now right. Qed.

(** ** The Jacobian as a whole *)
Lemma nth_error_rep {B} (a : B) n i : i < n -> nth_error (repeat a n) i = Some a.
Proof. intros L. rewrite nth_error_repeat'. apply Nat.ltb_lt in L. now rewrite L. Qed.
Lemma map_if_seq k n : k < n -> map (fun r => if Nat.eqb r k then n1 else n0) (seq 0 n) = unit_col n k.
Proof.
  intros L. apply list_ext. intros r. unfold unit_col, pad. rewrite nth_error_map'.
  destruct (Nat.lt_ge_cases r n) as [Lr|Lr].
  - rewrite nth_error_seq by auto. simpl. destruct (Nat.eqb_spec r k) as [->|N].
    + rewrite nth_error_app1 by (rewrite app_length, repeat_length; simpl; lia).
      rewrite nth_error_app2 by (rewrite repeat_length; lia). now rewrite repeat_length, Nat.sub_diag.
    + destruct (Nat.lt_ge_cases r k) as [Lk|Lk].
      * rewrite nth_error_app1 by (rewrite app_length, repeat_length; simpl; lia).
        rewrite nth_error_app1 by (rewrite repeat_length; lia). now rewrite nth_error_rep by lia.
      * rewrite nth_error_app2 by (rewrite app_length, repeat_length; simpl; lia).
        rewrite app_length, repeat_length. simpl length. now rewrite nth_error_rep by lia.
  - rewrite (proj2 (nth_error_None (seq 0 n) r)) by (rewrite seq_length; lia). simpl. symmetry. apply nth_error_None.
    rewrite !app_length, !repeat_length. simpl. lia.
Qed.

Lemma base_quotient_eq rt k B E :
  base_column rt k B (pose_transform (pose_inverse B) E) E (getRPY (rotation B))
     (match rt with RPY => getRPY (rotation E) | _ => v_clear end) = base_quotient rt k B E.
Proof. destruct rt; reflexivity. Qed.

Lemma jacobian_is R root sorted jsorted ms mass s m e jids rt wb m' J :
  Rep R root sorted jsorted ms mass s m -> Good m ->
  (forall k, In k jids -> k < length jsorted) -> get_jacobian e jids rt wb m = (m', Ok J) ->
  exists n, nth_error (all_links sorted s) e = Some n /\ is_jacobian R root jsorted s rt n jids wb J.
Proof.
  intros HR G Hk X. destruct (jacobian_named _ _ _ _ _ _ _ _ _ _ _ _ _ _ HR G Hk X) as (_ & n & E & cols & En & HE & F & L & EJ).
  exists n. split; auto. assert (Lc : length cols = length jids) by (symmetry; eapply Forall2_len; eauto). split.
  { subst J. replace (length jids + (if wb then 6 else 0)) with (length (cols ++ if wb then base_cols rt (as_base s) E else [])).
    - apply of_cols_shape.
    - rewrite app_length, Lc. destruct wb; reflexivity. }
  exists E. split; auto. split.
  - intros c k j Ec Ej. destruct (Forall2_nth_l _ _ _ c k F Ec) as (col & Ecol & (j' & Ej' & H)). assert (j' = j) by congruence. subst j'.
    assert (Col : column c J = col).
    { subst J. apply of_cols_column; [|apply L; eapply nth_error_In; eauto]. rewrite nth_error_app1; auto. eapply nth_error_lt; eauto. }
    rewrite Col. destruct H as [(H & C & HC & ->)|(H & ->)]; split; intros H'; try tauto; auto. exists C. auto.
  - intros -> b Lb.
    assert (X3 : forall c col, nth_error (base_cols rt (as_base s) E) c = Some col -> column (length jids + c) J = col).
    { intros c col Ec. subst J. rewrite <- Lc. apply of_cols_column.
      - rewrite nth_error_app2 by lia. now replace (length cols + c - length cols) with c by lia.
      - apply (base_cols_dim rt (as_base s) E). eapply nth_error_In; eauto. }
    split.
    + rewrite map_if_seq by (destruct rt; simpl; lia). apply X3. destruct b as [|[|[|b]]]; [reflexivity..|lia].
    + rewrite <- base_quotient_eq, <- Nat.add_assoc. apply X3. destruct b as [|[|[|b]]]; [reflexivity..|lia].
Qed.

(** a matrix is determined by its shape and columns *)
Lemma columns_eq r c J1 J2 : has_shape r c J1 -> has_shape r c J2 -> (forall k, k < c -> column k J1 = column k J2) -> J1 = J2.
Proof.
  intros [L1 W1] [L2 W2] H. apply list_ext. intros i.
  destruct (nth_error J1 i) as [r1|] eqn:E1.
  - assert (Li : i < length J2) by (rewrite L2, <- L1; eapply nth_error_lt; eauto).
    destruct (lt_nth_error _ _ Li) as (r2 & E2). rewrite E2. f_equal.
    assert (Lr1 : length r1 = c) by (apply W1; eapply nth_error_In; eauto). assert (Lr2 : length r2 = c) by (apply W2; eapply nth_error_In; eauto).
    apply list_ext. intros k. destruct (Nat.lt_ge_cases k c) as [Lk|Lk].
    + specialize (H k Lk). apply (f_equal (fun l => nth_error l i)) in H. unfold column in H.
      rewrite !nth_error_map', E1, E2 in H. simpl in H. inversion H as [H'].
      rewrite (nth_error_nth' r1 n0), (nth_error_nth' r2 n0) by lia. now rewrite H'.
    + rewrite !(proj2 (nth_error_None _ k)) by lia. reflexivity.
  - apply nth_error_None in E1. symmetry. apply nth_error_None. lia.
Qed.

Lemma in_range k (l : list nat) n : (forall j, In j l -> j < n) -> k < length l -> exists j, nth_error l k = Some j /\ j < n.
Proof. intros H L. destruct (lt_nth_error _ _ L) as (j & E). exists j. split; auto. apply H. eapply nth_error_In; eauto. Qed.

(** ** solve_forward_kinematics *)
Lemma pose_entries_length rt p : length (pose_entries rt p) = dim_jacobi rt.
Proof. destruct rt; reflexivity. Qed.
Lemma dim_rows rt : dim_jacobi rt = jac_rows rt.
Proof. destruct rt; reflexivity. Qed.
Lemma nth_error_concat1 {Row} (l tl : list Row) k : k < length l -> nth_error (l ++ tl) k = nth_error l k.
Proof. intros. now apply nth_error_app1. Qed.
Lemma concat_map_single {B C} (f : B -> C) l : concat (map (fun x => [f x]) l) = map f l.
Proof. induction l; simpl; congruence. Qed.

Section Fk.
Variables (R : Robot) (root : string) (sorted : list (string * option Inertial)) (jsorted : list UJoint)
          (ms : list (string * Inertial)) (mass : num).
Notation Rep := (Rep R root sorted jsorted ms mass).

Lemma query_keeps {B} (f : M KM B) s m m' r : query f -> Rep s m -> Good m -> f m = (m', r) -> Rep s m' /\ Good m'.
Proof.
  intros Q HR G E. destruct (Q m) as [SO C]. rewrite E in *. simpl in *. split; [exact (Rep_scratch _ _ _ _ _ _ _ _ _ HR SO)|].
  split; [eapply scratch_only_WF; eauto; apply G | auto].
Qed.

Definition named_pose (s : AState) (e : nat) (p : Pose) : Prop :=
  exists n, nth_error (all_links sorted s) e = Some n /\ pose_at R root jsorted s n p.
Definition named_jac (s : AState) (rt : RotationType) (jids : list nat) (wb : bool) (e : nat) (J : mat) : Prop :=
  exists n, nth_error (all_links sorted s) e = Some n /\ is_jacobian R root jsorted s rt n jids wb J.

Lemma get_link_pose_named s e m m' p : Rep s m -> Good m -> get_link_pose e m = (m', Ok p) -> named_pose s e p.
Proof.
  intros HR G X. destruct (get_link_pose_ok m e m' p G X) as [HP _].
  destruct (lt_nth_error _ _ (pose_of_lt _ _ _ _ _ HP)) as (l & El). exists (l_name l).
  pose proof (rep_link_inv _ _ _ _ _ _ _ _ HR e l El) as En. split; auto. exact (rep_pose_of' _ _ _ _ _ _ _ _ HR e _ p En HP).
Qed.

Lemma fk_poses_ok rt i el s dn rest m m' P' : Rep s m -> Good m -> length dn = i * length el ->
  (forall row, In row rest -> length row = dim_jacobi rt) ->
  fk_poses rt i el (dn ++ rest) m = (m', Ok P') ->
  (Rep s m' /\ Good m') /\ exists ps, length ps = length el /\
    (forall b e p, nth_error el b = Some e -> nth_error ps b = Some p -> named_pose s e p) /\
    length el <= length rest /\ P' = (dn ++ map (pose_entries rt) ps) ++ skipn (length el) rest.
Proof.
  intros HR G Ld Hr E. unfold fk_poses, enumerate in E.
  destruct (block_loop (fun je : nat * nat => get_link_pose (snd je)) (fun p => [pose_entries rt p])
     (fun r p P => mat_set_row r 0 (pose_entries rt p) P) 1 (i * length el) (fun k => i * length el + k)
     (fun rest => forall row, In row rest -> length row = dim_jacobi rt)
     (fun _ e p => named_pose s e p) (fun m1 => Rep s m1 /\ Good m1)) with (l := el) (k := 0) (dn := dn) (rest := rest) (m := m) (m' := m') (P' := P')
     as (I' & ps & Lp & HQ & _ & Lr & EP & _); auto; try (intros; lia).
  - intros ib m1 m2 y [R1 G1] X. split; [exact (query_keeps _ _ _ _ _ (query_get_link_pose _) R1 G1 X)|].
    exact (get_link_pose_named _ _ _ _ _ R1 G1 X).
  - intros _ _ y dn0 rest0 P0 _ Hr0 X.
    destruct (mat_set_row_app (dim_jacobi rt) _ _ _ _ (pose_entries_length rt y) ltac:(pose proof (dim_ge rt); lia) Hr0 X) as [L0 ->].
    split; auto. split; auto. split; [lia|]. intros row I. apply Hr0. destruct rest0; simpl in *; auto.
  - split; auto. exists ps. split; auto. split; [intros; eapply HQ; eauto|]. rewrite Nat.mul_1_r in *. split; auto.
    rewrite EP, concat_map_single, app_assoc. reflexivity.
Qed.

Lemma fk_jacs_ok rt i el jids wb s dn rest m m' J' : Rep s m -> Good m -> length dn = i * (length el * dim_jacobi rt) ->
  (forall k, In k jids -> k < length jsorted) ->
  fk_jacs rt i el jids wb (dn ++ rest) m = (m', Ok J') ->
  (Rep s m' /\ Good m') /\ exists Bs, length Bs = length el /\
    (forall b e B, nth_error el b = Some e -> nth_error Bs b = Some B -> named_jac s rt jids wb e B) /\
    (forall B, In B Bs -> length B = dim_jacobi rt) /\
    length el * dim_jacobi rt <= length rest /\ J' = (dn ++ concat Bs) ++ skipn (length el * dim_jacobi rt) rest.
Proof.
  intros HR G Ld Hk E. unfold fk_jacs, enumerate in E.
  destruct (block_loop (fun je : nat * nat => get_jacobian (snd je) jids rt wb) (fun B => B)
     (fun r B J => mat_set_block r B J) (dim_jacobi rt) (i * (length el * dim_jacobi rt)) (fun k => i * (length el * dim_jacobi rt) + k * dim_jacobi rt)
     (fun rest => True)
     (fun _ e B => named_jac s rt jids wb e B) (fun m1 => Rep s m1 /\ Good m1)) with (l := el) (k := 0) (dn := dn) (rest := rest) (m := m) (m' := m') (P' := J')
     as (I' & Bs & Lp & HQ & HL & Lr & EP & _); auto; try (intros; lia).
  - intros ib m1 m2 y [R1 G1] X. split; [exact (query_keeps _ _ _ _ _ (query_get_jacobian _ _ _ _) R1 G1 X)|].
    exact (jacobian_is _ _ _ _ _ _ _ _ _ _ _ _ _ _ R1 G1 Hk X).
  - intros _ e B dn0 rest0 P0 (n & _ & [LB _] & _) _ X. destruct (mat_set_block_app _ _ _ _ X) as [L0 ->].
    rewrite <- dim_rows in LB. rewrite LB in *. auto.
  - split; auto. exists Bs. split; auto. split; [intros; eapply HQ; eauto|]. split; auto. split; auto.
    rewrite EP, map_id, app_assoc. reflexivity.
Qed.

Definition wp_pose jids wb s qs el (a b : nat) (p : Pose) : Prop :=
  exists q e, nth_error qs a = Some q /\ nth_error el b = Some e /\ named_pose (at_waypoint jids wb q s) e p.
Definition wp_jac jids wb s rt qs el (a b : nat) (J : mat) : Prop :=
  exists q e, nth_error qs a = Some q /\ nth_error el b = Some e /\ named_jac (at_waypoint jids wb q s) rt jids wb e J.

Lemma split_index w i a b : b < w -> a < i -> a * w + b < i * w.
Proof. nia. Qed.

Lemma grid_grow {Y} (ok : nat -> nat -> Y -> Prop) w i (ys new : list Y) :
  length ys = i * w -> length new = w ->
  (forall a b y, a < i -> b < w -> nth_error ys (a * w + b) = Some y -> ok a b y) ->
  (forall b y, b < w -> nth_error new b = Some y -> ok i b y) ->
  length (ys ++ new) = S i * w /\
  forall a b y, a < S i -> b < w -> nth_error (ys ++ new) (a * w + b) = Some y -> ok a b y.
Proof.
  intros L1 L2 H1 H2. split; [rewrite app_length; lia|]. intros a b y La Lb E.
  destruct (Nat.lt_ge_cases a i) as [L|L].
  - rewrite nth_error_app1 in E by (rewrite L1; now apply split_index). auto.
  - replace a with i in * by lia. rewrite nth_error_app2 in E by (rewrite L1; lia).
    rewrite L1 in E. replace (i * w + b - i * w) with b in E by lia. auto.
Qed.

Lemma solve_fk_ok qs el jids rt wb wj uc s m m' P J :
  Rep s m -> (wb || negb uc)%bool = true -> (forall k, In k jids -> k < length jsorted) ->
  solve_forward_kinematics qs el jids rt wb wj uc m = (m', Ok (P, J)) ->
  (exists ps, P = map (pose_entries rt) ps /\ length ps = length qs * length el /\
     forall a b p, a < length qs -> b < length el -> nth_error ps (a * length el + b) = Some p -> wp_pose jids wb s qs el a b p) /\
  (wj = true -> exists Bs, J = concat Bs /\ length Bs = length qs * length el /\ (forall B, In B Bs -> length B = dim_jacobi rt) /\
     forall a b B, a < length qs -> b < length el -> nth_error Bs (a * length el + b) = Some B -> wp_jac jids wb s rt qs el a b B) /\
  (wj = false -> J = mat_zero (length qs * length el * dim_jacobi rt) (if wb then length jids + 6 else length jids)).
Proof.
  intros HR Hcl Hk E. unfold solve_forward_kinematics in E.
  apply bind_inv_ok in E. destruct E as (m1 & [] & E0 & E).
  assert (Em : m1 = m).
  { destruct wb; [|now inversion E0]. apply bind_inv_ok in E0. destruct E0 as (m2 & q0 & X0 & X1). apply lift_inv in X0. destruct X0 as [-> _].
    unfold throw, ret in X1. destruct (Nat.ltb (length q0) 6 || negb (Nat.eqb (length jids) (length q0 - 6)))%bool; now inversion X1. }
  subst m1. clear E0. set (w := length el) in *. set (d := dim_jacobi rt) in *. set (n := length qs) in *.
  set (Inv := fun (i : nat) (PJ : mat * mat) =>
    (exists ps rest, fst PJ = map (pose_entries rt) ps ++ rest /\ length rest = (n - i) * w /\ (forall row, In row rest -> length row = d) /\
       length ps = i * w /\ forall a b p, a < i -> b < w -> nth_error ps (a * w + b) = Some p -> wp_pose jids wb s qs el a b p) /\
    (wj = true -> exists Bs rest, snd PJ = concat Bs ++ rest /\ length rest = (n - i) * w * d /\ (forall B, In B Bs -> length B = d) /\
       length Bs = i * w /\ forall a b B, a < i -> b < w -> nth_error Bs (a * w + b) = Some B -> wp_jac jids wb s rt qs el a b B) /\
    (wj = false -> snd PJ = mat_zero (n * w * d) (if wb then length jids + 6 else length jids))).
  assert (X : Inv n (P, J)).
  { apply (waypoint_inv R root sorted jsorted ms mass jids wb (negb uc)
       (fun i PJ => P <- fk_poses rt i el (fst PJ) ;; J <- (if wj then fk_jacs rt i el jids wb (snd PJ) else ret (snd PJ)) ;; ret (P, J))
       qs s Inv) with (m := m) (m' := m') (acc := (mat_zero (n * w) d, mat_zero (n * w * d) (if wb then length jids + 6 else length jids))); auto.
    - intros i acc. apply query_bind; [apply query_fk_poses|]. intros P1. apply query_bind; [destruct wj; [apply query_fk_jacs | apply query_ret]|].
      intros; apply query_ret.
    - intros i q [P0 J0] PJ' m1 m2 Eq R1 G1 _ _ _ ((ps & rest & EP & Lr & Hr & Lp & Hp) & HJ & HJ0) X.
      cbn [fst snd] in *. apply bind_inv_ok in X. destruct X as (m3 & P1 & X1 & X). apply bind_inv_ok in X. destruct X as (m4 & J1 & X2 & X3).
      inversion X3; subst m4 PJ'. clear X3. assert (Li : i < n) by (eapply nth_error_lt; eauto).
      subst P0. destruct (fk_poses_ok rt i el _ _ rest m1 m3 P1 R1 G1 ltac:(rewrite map_length; exact Lp) Hr X1) as ((R3 & G3) & ps1 & Lp1 & Hp1 & Lr1 & EP1).
      fold w in Lp1, Lr1, EP1. split; [|split].
      + exists (ps ++ ps1), (skipn w rest). cbn [fst]. split; [rewrite EP1, map_app; reflexivity|].
        split; [rewrite skipn_length, Lr; replace (n - i) with (S (n - S i)) by lia; simpl; lia|].
        split; [intros row Ir; apply Hr; rewrite <- (firstn_skipn w rest); apply in_or_app; now right|].
        apply grid_grow; auto. intros b p Lb Ep. destruct (lt_nth_error el b Lb) as (e & Ee). exists q, e. repeat split; auto. now apply (Hp1 b).
      + intros ->. destruct (HJ eq_refl) as (Bs & rs & EJ & Lrs & HBl & LB & HB). subst J0.
        assert (LcB : length (concat Bs) = i * (w * d)) by (rewrite (concat_block_length Bs d HBl), LB; lia).
        destruct (fk_jacs_ok rt i el jids wb _ _ rs m3 m2 J1 R3 G3 LcB Hk X2) as (_ & Bs1 & LB1 & HB1 & HBl1 & Lr2 & EJ1).
        fold w d in LB1, Lr2, EJ1, HBl1. exists (Bs ++ Bs1), (skipn (w * d) rs). cbn [snd]. split; [rewrite EJ1, concat_app; reflexivity|].
        split; [rewrite skipn_length, Lrs; replace (n - i) with (S (n - S i)) by lia; simpl; lia|].
        split; [intros B IB; apply in_app_or in IB; destruct IB; auto|].
        apply grid_grow; auto. intros b B Lb EB. destruct (lt_nth_error el b Lb) as (e & Ee). exists q, e. repeat split; auto. now apply (HB1 b).
      + intros ->. cbn [snd]. inversion X2; subst. auto.
    - split; [|split]; cbn [fst snd]; auto.
      + exists [], (mat_zero (n * w) d). split; auto. unfold mat_zero. rewrite repeat_length. split; [f_equal; lia|].
        split; [intros row Ir; apply repeat_spec in Ir; subst; apply repeat_length|]. split; auto. intros; lia.
      + intros _. exists [], (mat_zero (n * w * d) (if wb then length jids + 6 else length jids)). split; auto. unfold mat_zero. rewrite repeat_length. split; [do 2 f_equal; lia|].
        split; [easy|]. split; auto. intros; lia. }
  destruct X as ((ps & rest & EP & Lr & _ & Lp & Hp) & HJ & HJ0). cbn [fst snd] in *. rewrite Nat.sub_diag in *. simpl in Lr.
  destruct rest; [|discriminate]. rewrite app_nil_r in EP. split; [exists ps; auto|]. split; auto.
  intros Hw. destruct (HJ Hw) as (Bs & rs & EJ & Lrs & HBl & LB & HB). destruct rs; [|discriminate]. rewrite app_nil_r in EJ. exists Bs. auto.
Qed.

End Fk.
End Wrap.
