(** The matrix returned by get_jacobian, column by column. *)
From Coq Require Import String List Arith Lia Bool.
From Verif Require Import Base Num Pose DataStructure Urdf Kin Pf_Base Pf_Data Inv Pf_FK Pf_Frame Pf_Rp.
Import ListNotations.

Lemma lift_inv {S B} (r : res B) (s s' : S) b : lift r s = (s', Ok b) -> s' = s /\ r = Ok b.
Proof. intros E. unfold lift in E. split; congruence. Qed.

Lemma Forall2_len {B C} (P : B -> C -> Prop) l l' : Forall2 P l l' -> length l = length l'.
Proof. induction 1; simpl; auto. Qed.

Section Cols.
Context `{A : Arith}.

(** the matrix with the given columns *)
Definition of_cols (dim : nat) (cols : list (list num)) : mat :=
  map (fun r => map (fun c => nth r c n0) cols) (seq 0 dim).

Definition pad (dim : nat) (l : list num) : list num := l ++ repeat n0 (dim - length l).

Lemma of_cols_length dim cols : length (of_cols dim cols) = dim.
Proof. unfold of_cols. now rewrite map_length, seq_length. Qed.
Lemma of_cols_row dim cols r : r < dim -> nth_error (of_cols dim cols) r = Some (map (fun c => nth r c n0) cols).
Proof. intros L. unfold of_cols. rewrite nth_error_map', nth_error_seq by auto. reflexivity. Qed.

Lemma list_ext {B} (l l' : list B) : (forall i, nth_error l i = nth_error l' i) -> l = l'.
Proof.
  revert l'; induction l as [|x l IH]; intros [|y l'] H; auto; try (specialize (H 0); discriminate).
  f_equal; [specialize (H 0); now inversion H | apply IH; intros i; apply (H (S i))].
Qed.

Lemma nth_list_set {B} (l : list B) i k b d : i < length l -> nth k (list_set l i b) d = if Nat.eqb i k then b else nth k l d.
Proof.
  revert i k; induction l as [|x l IH]; intros [|i] [|k] L; simpl in *; try lia; auto. apply IH; lia.
Qed.

Lemma of_cols_set dim cols r i v : r < dim -> i < length cols -> r < length (nth i cols []) ->
  mat_set r i v (of_cols dim cols) = Ok (of_cols dim (list_set cols i (list_set (nth i cols []) r v))).
Proof.
  intros Lr Li Lc. unfold mat_set. rewrite (proj2 (vget_ok _ _ _) (of_cols_row dim cols r Lr)). cbn [rbind].
  rewrite vset_lt by (now rewrite map_length). cbn [rbind]. rewrite vset_lt by (now rewrite of_cols_length). f_equal.
  apply list_ext. intros k. rewrite nth_error_list_set, of_cols_length.
  destruct (Nat.lt_ge_cases k dim) as [Lk|Lk].
  2:{ replace (Nat.eqb r k) with false by (symmetry; apply Nat.eqb_neq; lia). simpl.
      rewrite (proj2 (nth_error_None _ _)) by (rewrite of_cols_length; lia). symmetry. apply nth_error_None. rewrite of_cols_length; lia. }
  rewrite !of_cols_row by auto. destruct (Nat.eqb_spec r k) as [->|D]; simpl.
  - replace (Nat.ltb k dim) with true by (symmetry; now apply Nat.ltb_lt). f_equal.
    rewrite map_list_set. f_equal. rewrite nth_list_set by auto. now rewrite Nat.eqb_refl.
  - f_equal. rewrite map_list_set. rewrite nth_list_set by auto.
    destruct (Nat.eqb_spec r k); [lia|]. symmetry. apply list_set_same. rewrite nth_error_map'.
    rewrite (nth_error_nth' cols [] Li). reflexivity.
Qed.

Lemma nth_list_set_eq {B} (l : list B) i b d : i < length l -> nth i (list_set l i b) d = b.
Proof. intros L. rewrite nth_list_set by auto. now rewrite Nat.eqb_refl. Qed.

Lemma skipn_skipn' {B} a b (l : list B) : skipn a (skipn b l) = skipn (a + b) l.
Proof.
  revert l; induction b as [|b IH]; intros l; [now rewrite Nat.add_0_r|].
  destruct l; [now rewrite !skipn_nil|]. rewrite Nat.add_succ_r. apply IH.
Qed.

Lemma of_cols_set_col dim i vs : forall cols r0, i < length cols -> length (nth i cols []) = dim -> r0 + length vs <= dim ->
  mat_set_col r0 i vs (of_cols dim cols)
  = Ok (of_cols dim (list_set cols i (firstn r0 (nth i cols []) ++ vs ++ skipn (r0 + length vs) (nth i cols [])))).
Proof.
  induction vs as [|v vs IH]; intros cols r0 Li Ld L; simpl in *.
  - f_equal. f_equal. rewrite Nat.add_0_r, firstn_skipn. symmetry. apply list_set_same. apply nth_error_nth'. auto.
  - rewrite of_cols_set by (auto; lia). cbn [rbind]. rewrite IH.
    + f_equal. f_equal. rewrite nth_list_set_eq by auto. rewrite list_set_twice. f_equal.
      assert (Lr : r0 < length (nth i cols [])) by lia.
      destruct (lt_nth_error _ _ Lr) as (x & Ex).
      assert (E : list_set (nth i cols []) r0 v = firstn r0 (nth i cols []) ++ v :: skipn (S r0) (nth i cols [])).
      { clear -Lr. revert r0 Lr. induction (nth i cols []) as [|y l IH]; intros r0 Lr; [simpl in Lr; lia|].
        destruct r0; simpl; auto. f_equal. apply IH. simpl in Lr; lia. }
      rewrite E.
      replace (firstn (S r0) (firstn r0 (nth i cols []) ++ v :: skipn (S r0) (nth i cols [])))
        with (firstn r0 (nth i cols []) ++ [v]).
      2:{ rewrite firstn_app, firstn_length. replace (S r0 - Nat.min r0 (length (nth i cols []))) with 1 by lia.
          rewrite (firstn_all2 (n := S r0)) by (rewrite firstn_length; lia). reflexivity. }
      rewrite <- app_assoc. cbn [app]. f_equal. f_equal. f_equal.
      rewrite skipn_app, firstn_length. replace (S r0 + length vs - Nat.min r0 (length (nth i cols []))) with (S (length vs)) by lia.
      rewrite skipn_all2 by (rewrite firstn_length; lia). cbn [app].
      change (skipn (S (length vs)) (v :: skipn (S r0) (nth i cols []))) with (skipn (length vs) (skipn (S r0) (nth i cols []))).
      rewrite skipn_skipn'. f_equal. lia.
    + rewrite list_set_length. auto.
    + rewrite nth_list_set_eq by auto. rewrite list_set_length. auto.
    + lia.
Qed.

Lemma of_cols_zero dim n : mat_zero dim n = of_cols dim (repeat (repeat n0 dim) n).
Proof.
  unfold mat_zero. apply list_ext. intros r. destruct (Nat.lt_ge_cases r dim) as [L|L].
  - rewrite of_cols_row by auto. rewrite nth_error_repeat'. replace (r <? dim) with true by (symmetry; now apply Nat.ltb_lt).
    f_equal. clear -L. induction n; simpl; auto. f_equal; auto. symmetry. apply nth_repeat.
  - rewrite (proj2 (nth_error_None _ _)) by (rewrite repeat_length; lia). symmetry. apply nth_error_None. rewrite of_cols_length; lia.
Qed.

(** writing a column of zeros *)
Lemma of_cols_set_zero dim cols i vs : i < length cols -> nth i cols [] = repeat n0 dim -> length vs <= dim ->
  mat_set_col 0 i vs (of_cols dim cols) = Ok (of_cols dim (list_set cols i (pad dim vs))).
Proof.
  intros Li En L. rewrite of_cols_set_col; auto; [|now rewrite En, repeat_length]. rewrite En. simpl. unfold pad.
  assert (E : skipn (length vs) (repeat n0 dim) = repeat n0 (dim - length vs)).
  { clear -L. revert dim L. induction (length vs) as [|k IH]; intros dim L; [now rewrite Nat.sub_0_r|].
    destruct dim; [lia|]. simpl. apply IH. lia. }
  now rewrite E.
Qed.

(** ** get_jacobian *)

(** the column of joint [jid] for link [e] at pose [E] *)
Definition jac_col (m : KM) (rt : RotationType) (e : nat) (E : Pose) (jid : nat) (col : list num) : Prop :=
  exists b, isRelevant (rptable m) e jid = Ok b /\
    if b : bool then
      exists hj c l C, nth_error (joints m) jid = Some hj /\ j_child hj = Some c /\ nth_error (links m) c = Some l /\
        PoseOf m (l_id l) C /\
        col = pad (dim_jacobi rt)
                (joint_column rt hj (position E)
                   (match rt with RPY => getRPY (rotation E) | _ => v_clear end)
                   (match rt with XYZW => q_inverse (rotation E) | _ => q_clear end) C)
    else col = repeat n0 (dim_jacobi rt).

Definition unit_col (dim k : nat) : list num := pad dim (repeat n0 k ++ [n1]).

Definition base_cols (rt : RotationType) (B E : Pose) : list (list num) :=
  map (unit_col (dim_jacobi rt)) [0; 1; 2] ++
  map (fun k => base_column rt k B (pose_transform (pose_inverse B) E) E (getRPY (rotation B))
                  (match rt with RPY => getRPY (rotation E) | _ => v_clear end)) [0; 1; 2].

Lemma joint_column_length rt j ep er ei C : length (joint_column rt j ep er ei C) <= dim_jacobi rt.
Proof. unfold joint_column, dim_jacobi. destruct (j_type j), rt; simpl; lia. Qed.
Lemma base_column_length rt k B BE E rb er : length (base_column rt k B BE E rb er) = dim_jacobi rt.
Proof. unfold base_column, dim_jacobi. destruct rt; reflexivity. Qed.
Lemma dim_ge rt : 3 <= dim_jacobi rt. Proof. destruct rt; simpl; lia. Qed.

Lemma pad_length dim l : length l <= dim -> length (pad dim l) = dim.
Proof. intros L. unfold pad. rewrite app_length, repeat_length. lia. Qed.
Lemma pad_full dim l : length l = dim -> pad dim l = l.
Proof. intros <-. unfold pad. rewrite Nat.sub_diag. simpl. apply app_nil_r. Qed.

Lemma list_set_app_mid {B} (l1 l2 : list B) x y : list_set (l1 ++ x :: l2) (length l1) y = (l1 ++ [y]) ++ l2.
Proof. induction l1; simpl; auto. now rewrite IHl1. Qed.

Lemma jac_col_same m m' rt e E jid col : scratch_only m m' -> (jac_col m' rt e E jid col <-> jac_col m rt e E jid col).
Proof.
  intros S. 
  destruct (scratch_only_same _ _ S) as (s & c & ->). reflexivity.
Qed.

Lemma jacobian_joint_ok rt e E m jid J m' J' done n dim :
  Good m -> dim = dim_jacobi rt ->
  J = of_cols dim (done ++ repeat (repeat n0 dim) (S n)) ->
  jacobian_joint rt e (position E) (match rt with RPY => getRPY (rotation E) | _ => v_clear end)
     (match rt with XYZW => q_inverse (rotation E) | _ => q_clear end) (length done) jid J m = (m', Ok J') ->
  Query m m' /\ exists col, jac_col m rt e E jid col /\ length col = dim /\
    J' = of_cols dim ((done ++ [col]) ++ repeat (repeat n0 dim) n).
Proof.
  intros G Ed EJ X. unfold jacobian_joint in X. rewrite bind_get in X.
  apply bind_inv_ok in X. destruct X as (m1 & b & X1 & X). inversion X1; subst m1. rename H1 into Eb.
  destruct b.
  - apply bind_inv_ok in X. destruct X as (m1 & hj & X2 & X). inversion X2; subst m1. rename H1 into Ehj. apply vget_ok in Ehj.
    apply bind_inv_ok in X. destruct X as (m1 & c & X3 & X). inversion X3; subst m1. rename H1 into Ec.
    apply bind_inv_ok in X. destruct X as (m1 & l & X4 & X). inversion X4; subst m1. rename H1 into El. apply vget_ok in El.
    apply bind_inv_ok in X. destruct X as (m1 & C & X5 & X). destruct (get_link_pose_ok _ _ _ _ G X5) as [HC Q].
    apply lift_inv in X. destruct X as [-> Em]. split; auto.
    pose proof (joint_column_length rt hj (position E) (match rt with RPY => getRPY (rotation E) | _ => v_clear end)
     (match rt with XYZW => q_inverse (rotation E) | _ => q_clear end) C) as Lc.
    eexists. split; [|split].
    + exists true. split; auto. exists hj, c, l, C. split; auto. split; [destruct (j_child hj); now inversion Ec|]. split; auto.
    + subst dim. now apply pad_length.
    + rewrite EJ in Em. rewrite of_cols_set_zero in Em.
      * inversion Em. f_equal. cbn [repeat]. rewrite list_set_app_mid. subst dim. reflexivity.
      * rewrite app_length. simpl. lia.
      * rewrite app_nth2 by lia. now rewrite Nat.sub_diag.
      * subst dim; auto.
  - inversion X; subst m' J'. split; [now apply Query_refl|]. exists (repeat n0 dim). split; [|split].
    + exists false. split; auto.
    + now rewrite repeat_length.
    + rewrite EJ. cbn [repeat]. now rewrite <- app_assoc.
Qed.

Lemma combine_seq_app {B} (l : list B) : forall a, combine (seq a (length l)) l = map (fun p => p) (combine (seq a (length l)) l).
Proof. intros a. now rewrite map_id. Qed.

Lemma Query_jac m m' rt e E jid col : Query m m' -> (jac_col m' rt e E jid col <-> jac_col m rt e E jid col).
Proof. intros ((s & c & ->) & _). reflexivity. Qed.

Lemma joints_loop rt e E dim : dim = dim_jacobi rt -> forall jids n done J m m' J',
  Good m ->
  J = of_cols dim (done ++ repeat (repeat n0 dim) (length jids + n)) ->
  for_each (combine (seq (length done) (length jids)) jids) J
     (fun ij J => jacobian_joint rt e (position E) (match rt with RPY => getRPY (rotation E) | _ => v_clear end)
          (match rt with XYZW => q_inverse (rotation E) | _ => q_clear end) (fst ij) (snd ij) J) m = (m', Ok J') ->
  Query m m' /\ exists cols, Forall2 (jac_col m rt e E) jids cols /\ (forall c, In c cols -> length c = dim) /\
    J' = of_cols dim (done ++ cols ++ repeat (repeat n0 dim) n).
Proof.
  intros Ed. induction jids as [|jid jids IH]; intros n done J m m' J' G EJ X.
  - inversion X; subst m' J'. split; [now apply Query_refl|]. exists []. split; auto. split; [easy|]. rewrite EJ. reflexivity.
  - cbn [length seq combine] in X. rewrite for_each_cons in X. apply bind_inv_ok in X. destruct X as (m1 & J1 & X1 & X).
    cbn [fst snd] in X1. destruct (jacobian_joint_ok rt e E m jid J m1 J1 done (length jids + n) dim G Ed EJ X1) as (Q & col & Hc & Lc & E1).
    replace (S (length done)) with (length (done ++ [col])) in X by (rewrite app_length; simpl; lia).
    destruct (IH n (done ++ [col]) J1 m1 m' J' (proj1 (proj2 Q)) E1 X) as (Q' & cols & F & Lcs & E').
    split; [eapply Query_trans; eauto|]. exists (col :: cols). split; [|split].
    + constructor; auto. clear -F Q. induction F; constructor; auto. apply (Query_jac _ _ rt e E _ _ ltac:(eassumption)); auto.
    + intros c [<-|I]; auto.
    + rewrite E'. rewrite <- app_assoc. reflexivity.
Qed.

Lemma unit_col_length dim k : k < dim -> length (unit_col dim k) = dim.
Proof. intros L. unfold unit_col. apply pad_length. rewrite app_length, repeat_length. simpl. lia. Qed.

Lemma list_set_repeat dim k : k < dim -> list_set (repeat n0 dim) k n1 = unit_col dim k.
Proof.
  unfold unit_col, pad. revert dim; induction k as [|k IH]; intros [|dim] L; try lia; simpl.
  - now rewrite Nat.sub_0_r.
  - f_equal. rewrite IH by lia. reflexivity.
Qed.

Lemma set_unit dim done k n : k < dim ->
  mat_set k (length done) n1 (of_cols dim (done ++ repeat (repeat n0 dim) (S n)))
  = Ok (of_cols dim ((done ++ [unit_col dim k]) ++ repeat (repeat n0 dim) n)).
Proof.
  intros L. rewrite of_cols_set; auto.
  - rewrite app_nth2 by lia. rewrite Nat.sub_diag. cbn [repeat nth]. rewrite list_set_app_mid, list_set_repeat by auto. reflexivity.
  - rewrite app_length. simpl. lia.
  - rewrite app_nth2 by lia. rewrite Nat.sub_diag. cbn [repeat nth]. now rewrite repeat_length.
Qed.

Lemma set_base_col dim done vs n : length vs = dim ->
  mat_set_col 0 (length done) vs (of_cols dim (done ++ repeat (repeat n0 dim) (S n)))
  = Ok (of_cols dim ((done ++ [vs]) ++ repeat (repeat n0 dim) n)).
Proof.
  intros L. rewrite of_cols_set_zero.
  - cbn [repeat]. now rewrite list_set_app_mid, pad_full.
  - rewrite app_length. simpl. lia.
  - rewrite app_nth2 by lia. now rewrite Nat.sub_diag.
  - lia.
Qed.

Lemma jacobian_base_fill rt dim done tf_r_b tf_b_e tf_r_e rpy_b erpy : dim = dim_jacobi rt ->
  (rbind (mat_set 0 (length done + 0) n1 (of_cols dim (done ++ repeat (repeat n0 dim) 6))) (fun J1 =>
   rbind (mat_set 1 (length done + 1) n1 J1) (fun J2 =>
   rbind (mat_set 2 (length done + 2) n1 J2) (fun J3 =>
        rfor [0; 1; 2] J3 (fun k J' =>
          mat_set_col 0 (length done + 3 + k) (base_column rt k tf_r_b tf_b_e tf_r_e rpy_b erpy) J'))))) =
  Ok (of_cols dim (done ++ (map (unit_col dim) [0; 1; 2] ++ map (fun k => base_column rt k tf_r_b tf_b_e tf_r_e rpy_b erpy) [0; 1; 2]))).
Proof.
  intros Ed. pose proof (dim_ge rt) as G. set (bc k := base_column rt k tf_r_b tf_b_e tf_r_e rpy_b erpy).
  assert (Lb : forall k, length (bc k) = dim) by (intros; unfold bc; rewrite base_column_length; auto).
  rewrite Nat.add_0_r, set_unit by lia. cbn [rbind].
  assert (L1 : length done + 1 = length (done ++ [unit_col dim 0])) by (rewrite app_length; simpl; lia).
  rewrite L1, set_unit by lia. cbn [rbind].
  assert (L2 : length done + 2 = length ((done ++ [unit_col dim 0]) ++ [unit_col dim 1])) by (rewrite !app_length; simpl; lia).
  rewrite L2, set_unit by lia. cbn [rbind rfor].
  set (d3 := ((done ++ [unit_col dim 0]) ++ [unit_col dim 1]) ++ [unit_col dim 2]).
  assert (L3 : length done + 3 + 0 = length d3) by (unfold d3; rewrite !app_length; simpl; lia).
  rewrite L3, (set_base_col dim d3 (bc 0)) by auto. cbn [rbind].
  assert (L4 : length done + 3 + 1 = length (d3 ++ [bc 0])) by (unfold d3; rewrite !app_length; simpl; lia).
  rewrite L4, (set_base_col dim (d3 ++ [bc 0]) (bc 1)) by auto. cbn [rbind].
  assert (L5 : length done + 3 + 2 = length ((d3 ++ [bc 0]) ++ [bc 1])) by (unfold d3; rewrite !app_length; simpl; lia).
  rewrite L5, (set_base_col dim _ (bc 2)) by auto. cbn [rbind repeat]. unfold d3. cbn [map app]. rewrite <- !app_assoc. reflexivity.
Qed.

Lemma root_pose m B : WF m -> PoseOf m (root_link_id m) B -> B = base_pose m.
Proof.
  intros W H. destruct (wf_root m W) as (l & E & Ep). inversion H as [i l' E' Ep'|i l' p j t P E' Ep']; subst; auto. congruence.
Qed.

Lemma get_jacobian_ok m e jids rt wb m' J : Good m -> get_jacobian e jids rt wb m = (m', Ok J) ->
  Query m m' /\ exists E cols, PoseOf m e E /\ Forall2 (jac_col m rt e E) jids cols /\
    (forall c, In c cols -> length c = dim_jacobi rt) /\
    J = of_cols (dim_jacobi rt) (cols ++ if wb then base_cols rt (base_pose m) E else []).
Proof.
  intros G X. unfold get_jacobian in X. apply bind_inv_ok in X. destruct X as (m1 & E & X1 & X).
  destruct (get_link_pose_ok _ _ _ _ G X1) as [HE Q1].
  apply bind_inv_ok in X. destruct X as (m2 & J2 & X2 & X).
  rewrite of_cols_zero in X2.
  destruct (joints_loop rt e E (dim_jacobi rt) eq_refl jids (if wb then 6 else 0) [] _ m1 m2 J2 (proj1 (proj2 Q1)) eq_refl X2)
    as (Q2 & cols & F & Lc & E2).
  assert (F' : Forall2 (jac_col m rt e E) jids cols).
  { clear -F Q1. induction F; constructor; auto. apply (Query_jac _ _ rt e E _ _ ltac:(eassumption)); auto. }
  pose proof (Query_trans _ _ _ Q1 Q2) as Q12. simpl in E2.
  destruct wb.
  - unfold jacobian_base in X. rewrite bind_get in X. apply bind_inv_ok in X. destruct X as (m3 & B & X3 & X).
    destruct (get_link_pose_ok _ _ _ _ (proj1 (proj2 Q12)) X3) as [HB Q3].
    apply root_pose in HB; [|apply Q2].
    apply lift_inv in X. destruct X as [-> EJ]. split; [eapply Query_trans; eauto|]. exists E, cols. split; auto. split; auto. split; auto.
    assert (Ln : length jids = length cols) by (eapply Forall2_len; eauto).
    rewrite E2 in EJ. rewrite Ln in EJ. rewrite (jacobian_base_fill rt (dim_jacobi rt) cols) in EJ by auto. inversion EJ.
    unfold base_cols. f_equal. f_equal. replace (base_pose m) with B; [reflexivity|].
    rewrite HB. destruct Q12 as ((s & c & ->) & _). reflexivity.
  - inversion X; subst m' J. split; auto. exists E, cols. split; auto.
Qed.

(** totality *)
Lemma jac_col_total m e jid : Good m -> RpExact m -> e < length (links m) -> jid < length (joints m) ->
  exists b, isRelevant (rptable m) e jid = Ok b.
Proof.
  intros G [_ R] Le Lj. destruct (lt_nth_error _ _ Lj) as (j & Ej). destruct (wf_joints m (proj1 G) jid j Ej) as (_ & _ & c & l & Ec & _).
  destruct (R e jid j c Le Ej Ec) as (b & Eb & _). exists b. exact Eb.
Qed.

Lemma StackOK_query m m' : Query m m' -> StackOK m -> StackOK m'.
Proof. apply Query_StackOK. Qed.

Lemma get_jacobian_total m e jids rt wb : Good m -> StackOK m -> (jids <> [] -> RpExact m) -> e < length (links m) ->
  (forall j, In j jids -> j < length (joints m)) ->
  exists m' J, get_jacobian e jids rt wb m = (m', Ok J).
Proof.
  intros G SK R Le Lj. unfold get_jacobian.
  destruct (get_link_pose_total m e G SK Le) as (m1 & E & E1 & HE & Q1). rewrite (bind_ok _ _ _ _ _ E1).
  rewrite of_cols_zero.
  set (dim := dim_jacobi rt). set (nb := if wb then 6 else 0).
  assert (Loop : forall js done m1, Query m m1 -> (forall j, In j js -> In j jids) ->
     exists m2 J2, for_each (combine (seq (length done) (length js)) js) (of_cols dim (done ++ repeat (repeat n0 dim) (length js + nb)))
       (fun ij J => jacobian_joint rt e (position E) (match rt with RPY => getRPY (rotation E) | _ => v_clear end)
          (match rt with XYZW => q_inverse (rotation E) | _ => q_clear end) (fst ij) (snd ij) J) m1 = (m2, Ok J2)
       /\ Query m m2 /\ exists cols, length cols = length js /\ J2 = of_cols dim (done ++ cols ++ repeat (repeat n0 dim) nb)).
  { clear m1 E1 HE Q1. induction js as [|j js IH]; intros done m1 Q1 Ij.
    - eexists _, _. split; [reflexivity|]. split; auto. exists []. auto.
    - cbn [length seq combine]. rewrite for_each_cons. cbn [fst snd].
      assert (Lj' : j < length (joints m)) by (apply Lj, Ij; now left).
      assert (R' : RpExact m). { apply R. intros X. specialize (Ij j (or_introl eq_refl)). now rewrite X in Ij. }
      destruct (jac_col_total m e j G R' Le Lj') as (b & Eb).
      assert (step : exists m2 J2, jacobian_joint rt e (position E) (match rt with RPY => getRPY (rotation E) | _ => v_clear end)
          (match rt with XYZW => q_inverse (rotation E) | _ => q_clear end) (length done) j
          (of_cols dim (done ++ repeat (repeat n0 dim) (S (length js) + nb))) m1 = (m2, Ok J2)).
      { unfold jacobian_joint. rewrite bind_get. destruct Q1 as ((s & c & E0) & G1 & L1).
        assert (Eb1 : isRelevant (rptable m1) e j = Ok b) by (rewrite E0; exact Eb).
        rewrite (bind_lift_ok _ _ _ _ Eb1). destruct b; [|eexists _, _; reflexivity].
        destruct (lt_nth_error _ _ Lj') as (hj & Ehj). destruct (wf_joints m (proj1 G) j hj Ehj) as (_ & _ & cl & l & Ec & El & _).
        assert (Ehj1 : nth_error (joints m1) j = Some hj) by (rewrite E0; exact Ehj).
        assert (El1 : nth_error (links m1) cl = Some l) by (rewrite E0; exact El).
        rewrite (bind_lift_ok _ _ _ _ (proj2 (vget_ok _ _ _) Ehj1)).
        assert (Ed : deref (j_child hj) = Ok cl) by (now rewrite Ec). rewrite (bind_lift_ok _ _ _ _ Ed).
        rewrite (bind_lift_ok _ _ _ _ (proj2 (vget_ok _ _ _) El1)).
        rewrite (wf_ids m (proj1 G) cl l El).
        assert (S1 : StackOK m1). { apply (Query_StackOK m); auto. split; [now exists s, c|]. auto. }
        destruct (get_link_pose_total m1 cl G1 S1) as (m2 & C & E2 & HC & Q2); [rewrite E0; eapply nth_error_lt; eauto|].
        rewrite (bind_ok _ _ _ _ _ E2). rewrite of_cols_set_zero; [eexists _, _; reflexivity| | |].
        - rewrite app_length. simpl. lia.
        - rewrite app_nth2 by lia. now rewrite Nat.sub_diag.
        - apply joint_column_length. }
      destruct step as (m2 & J2 & E2).
      destruct (jacobian_joint_ok rt e E m1 j _ m2 J2 done (length js + nb) dim (proj1 (proj2 Q1)) eq_refl eq_refl E2) as (Q2 & col & Hc & Lc & EJ2).
      assert (Eb2 := bind_ok _ (fun acc' => for_each (combine (seq (S (length done)) (length js)) js) acc'
         (fun ij J => jacobian_joint rt e (position E) (match rt with RPY => getRPY (rotation E) | _ => v_clear end)
          (match rt with XYZW => q_inverse (rotation E) | _ => q_clear end) (fst ij) (snd ij) J)) _ _ _ E2).
      rewrite Eb2. rewrite EJ2.
      replace (S (length done)) with (length (done ++ [col])) by (rewrite app_length; simpl; lia).
      destruct (IH (done ++ [col]) m2 (Query_trans _ _ _ Q1 Q2)) as (m3 & J3 & E3 & Q3 & cols & Lcs & EJ3).
      + intros x I. apply Ij. now right.
      + exists m3, J3. split; auto. split; auto. exists (col :: cols). split; [simpl; lia|]. rewrite EJ3, <- app_assoc. reflexivity. }
  destruct (Loop jids [] m1 Q1 (fun j I => I)) as (m2 & J2 & E2 & Q2 & cols & Lc & EJ). simpl in E2, EJ.
  assert (E2' := E2). unfold nb in E2'.
  rewrite (bind_ok _ _ _ _ _ E2').
  destruct wb; [|eexists _, _; reflexivity].
  unfold jacobian_base. rewrite bind_get.
  assert (S2 : StackOK m2) by (eapply Query_StackOK; eauto).
  assert (Lr : root_link_id m2 < length (links m2)).
  { destruct (wf_root m2 (proj1 (proj1 (proj2 Q2)))) as (l & El & _). eapply nth_error_lt; eauto. }
  destruct (get_link_pose_total m2 (root_link_id m2) (proj1 (proj2 Q2)) S2 Lr) as (m3 & B & E3 & HB & Q3).
  rewrite (bind_ok _ _ _ _ _ E3). unfold lift. rewrite EJ, <- Lc. unfold nb. rewrite (jacobian_base_fill rt dim cols) by auto.
  eexists _, _. reflexivity.
Qed.

End Cols.
