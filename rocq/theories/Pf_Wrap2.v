(** solve_com_forward_kinematics and compute_inter_link_squared_dists: what ends up in
    which row. *)
From Coq Require Import String List Arith Lia Bool.
From Verif Require Import Base Num Pose DataStructure Urdf Kin Wrapper Spec_Robot Spec_Hist Spec_Load Spec_Jac Spec_Mass
  Pf_Base Pf_Data Inv Pf_FK Pf_Frame Pf_Rp Rep Pf_Ops Pf_Name Pf_Reach Pf_Jac Pf_Safe Pf_Pose Pf_Local Pf_Wrap Pf_Hist Pf_Mass.
Import ListNotations.
Local Open Scope m_scope.

Section Wrap2.
Context `{A : Arith}.
Variables (R : Robot) (root : string) (sorted : list (string * option Inertial)) (jsorted : list UJoint)
          (ms : list (string * Inertial)) (mass : num).
Notation Rep := (Rep R root sorted jsorted ms mass).
Notation named_pose := (named_pose R root sorted jsorted).
Notation named_jac := (named_jac R root sorted jsorted).

Definition forced_com (s : AState) (actions : list nat) (forces : list num) (c : Vector3) : Prop :=
  exists com ps, is_com R root jsorted ms s com /\ Forall2 (named_pose s) actions ps /\ length actions <= length forces /\
    c = forced_point mass com (combine forces (map position ps)).
Definition forced_jac (s : AState) (jids actions : list nat) (forces : list num) (wb : bool) (J : mat) : Prop :=
  exists J0 Js, is_com_jacobian R root jsorted ms s jids wb J0 /\ Forall2 (named_jac s IGNORE jids wb) actions Js /\
    J = forced_mat mass J0 (combine forces Js).

Lemma skipn_nth {B} (l : list B) : forall k x, nth_error l k = Some x -> skipn k l = x :: skipn (S k) l.
Proof. induction l as [|y l IH]; intros [|k] x E; simpl in E; try discriminate; [now inversion E | now apply IH]. Qed.

Lemma sum_map {Y Z} (h : Y -> Z) : forall lf (ys : list Y) a, fold_left (fun a fp => add a (div (fst fp) mass)) (combine lf (map h ys)) a =
  fold_left (fun a fp => add a (div (fst fp) mass)) (combine lf ys) a.
Proof. induction lf as [|x l IH]; intros [|y ys] a; simpl; auto. Qed.
Lemma sum_len {Y Z} : forall lf (ys : list Y) (zs : list Z) a, length ys = length zs -> fold_left (fun a fp => add a (div (fst fp) mass)) (combine lf ys) a =
  fold_left (fun a fp => add a (div (fst fp) mass)) (combine lf zs) a.
Proof. induction lf as [|x l IH]; intros [|y ys] [|z zs] a L; simpl in *; auto; lia. Qed.

Lemma forces_loop (jids : list nat) (forces : list num) (wb wj : bool) s : (forall k, In k jids -> k < length jsorted) ->
  forall actions k m m' (fsum : num) com B r, Rep s m -> Good m ->
  for_each (combine (seq k (length actions)) actions) (fsum, com, B) (fun (ja : nat * nat) (acc : num * Vector3 * mat) =>
             let '(fsum, com, B) := acc in
             m <- get ;;
             f <- lift (vget forces (fst ja)) ;;
             let force := div f (total_mass m) in
             p <- get_link_pose (snd ja) ;;
             B' <- (if wj
                    then jac <- get_jacobian (snd ja) jids IGNORE wb ;;
                         ret (mat_zip add B (mat_map (mul force) jac))
                    else ret B) ;;
             ret (add fsum force, v_fma force (position p) com, B')) m = (m', Ok r) ->
  (Rep s m' /\ Good m') /\ (actions = [] \/ k + length actions <= length forces) /\ exists ps Js, Forall2 (named_pose s) actions ps /\
    (wj = true -> Forall2 (named_jac s IGNORE jids wb) actions Js) /\
    r = (fold_left (fun a fp => add a (div (fst fp) mass)) (combine (skipn k forces) ps) fsum,
         weighted_sum (map (fun fp => (div (fst fp) mass, snd fp)) (combine (skipn k forces) (map position ps))) com,
         if wj then fold_left (fun acc fj => mat_zip add acc (mat_map (mul (div (fst fj) mass)) (snd fj))) (combine (skipn k forces) Js) B else B).
Proof.
  intros Hk. induction actions as [|e actions IH]; intros k m m' fsum com B r HR G E.
  - simpl in E. inversion E; subst. split; auto. split; auto. exists [], []. split; [constructor|]. split; [constructor|].
    destruct (skipn k forces); destruct wj; reflexivity.
  - simpl length in *. simpl seq in E. simpl combine in E. rewrite for_each_cons in E.
    apply bind_inv_ok in E. destruct E as (m1 & acc1 & E1 & E). rewrite bind_get in E1. cbn [fst snd] in E1.
    destruct (vget forces k) as [f| | |] eqn:Ef; try discriminate E1. rewrite (bind_lift_ok _ _ _ _ eq_refl) in E1.
    rewrite (rep_mass _ _ _ _ _ _ _ _ HR) in E1. cbv zeta in E1.
    apply vget_ok in Ef.
    apply bind_inv_ok in E1. destruct E1 as (m2 & p & X1 & E1). apply bind_inv_ok in E1. destruct E1 as (m3 & B1 & X2 & X3).
    inversion X3; subst m3 acc1. clear X3.
    pose proof (get_link_pose_named _ _ _ _ _ _ _ _ _ _ _ HR G X1) as Np.
    destruct (query_keeps _ _ _ _ _ _ _ _ _ _ _ (query_get_link_pose e) HR G X1) as [R2 G2].
    assert (Es : skipn k forces = f :: skipn (S k) forces) by (now apply skipn_nth).
    destruct wj.
    + apply bind_inv_ok in X2. destruct X2 as (m4 & jac & X2 & X3). inversion X3; subst m4 B1. clear X3.
      destruct (query_keeps _ _ _ _ _ _ _ _ _ _ _ (query_get_jacobian e jids IGNORE wb) R2 G2 X2) as [R3 G3].
      pose proof (jacobian_is _ _ _ _ _ _ _ _ _ _ _ _ _ _ R2 G2 Hk X2) as Nj.
      destruct (IH (S k) m1 m' _ _ _ r R3 G3 E) as (I' & Lf & ps & Js & Fp & Fj & ->). split; auto.
      split; [right; pose proof (nth_error_lt _ _ _ Ef); destruct Lf as [->|Lf]; simpl; lia|].
      exists (p :: ps), (jac :: Js). split; [now constructor|]. split; [constructor; auto|]. rewrite Es. reflexivity.
    + inversion X2; subst m2 B1. clear X2. rename R2 into R3. rename G2 into G3.
      destruct (IH (S k) m1 m' _ _ _ r R3 G3 E) as (I' & Lf & ps & Js & Fp & Fj & ->). split; auto.
      split; [right; pose proof (nth_error_lt _ _ _ Ef); destruct Lf as [->|Lf]; simpl; lia|].
      exists (p :: ps), Js. split; [now constructor|]. split; [easy|]. rewrite Es. reflexivity.
Qed.

Lemma apply_forces_ok jids actions forces wb wj s com B m m' c B' :
  (forall k, In k jids -> k < length jsorted) -> Rep s m -> Good m -> 
  apply_forces jids actions forces wb wj com B m = (m', Ok (c, B')) ->
  (Rep s m' /\ Good m') /\ (actions = [] \/ length actions <= length forces) /\ exists ps Js, Forall2 (named_pose s) actions ps /\
    c = forced_point mass com (combine forces (map position ps)) /\
    (wj = true -> Forall2 (named_jac s IGNORE jids wb) actions Js /\ B' = forced_mat mass B (combine forces Js)) /\
    (wj = false -> B' = B).
Proof.
  intros Hk HR G E. unfold apply_forces in E. destruct actions as [|e actions].
  - inversion E; subst. split; auto. split; auto. exists [], []. split; [constructor|].
    split; [destruct forces; reflexivity|]. split; auto. split; [constructor|]. destruct forces; reflexivity.
  - apply bind_inv_ok in E. destruct E as (m1 & [[fsum com1] B1] & E1 & E2). unfold enumerate in E1.
    destruct (forces_loop jids forces wb wj s Hk (e :: actions) 0 m m1 _ _ _ _ HR G E1) as (I' & Lf & ps & Js & Fp & Fj & Er).
    inversion E2; subst m1 c B'. clear E2. split; auto. split; [destruct Lf; [discriminate | auto]|]. exists ps, Js. split; auto.
    inversion Er as [[Ef Ec EB]]. clear Er. change (skipn 0 forces) with forces in *.
    destruct Lf as [Lf|Lf]; [discriminate|]. simpl in Lf. inversion Fp as [|? p0 ? ps0 _ _]; subst ps.
    destruct forces as [|f forces]; [simpl in Lf; lia|].
    split; [|split].
    + rewrite <- (sum_map position). simpl combine. unfold forced_point. reflexivity.
    + intros ->. specialize (Fj eq_refl). split; auto. inversion Fj as [|? J0 ? Js0 _ _ Z1 Z2]; subst Js.
      rewrite (sum_len _ _ (J0 :: Js0)) by (apply Forall2_len in Fp; apply Forall2_len in Fj; congruence).
      simpl combine. unfold forced_mat. reflexivity.
    + intros ->. reflexivity.
Qed.

(** shapes *)
Lemma zip_len f (P Q : mat) n : length P = n -> length Q = n -> length (mat_zip f P Q) = n.
Proof. intros H1 H2. unfold mat_zip. rewrite map_length, combine_length. lia. Qed.
Lemma map_len f (P : mat) : length (mat_map f P) = length P.
Proof. apply map_length. Qed.

Lemma fold_zip_len n (h : num -> num) : forall (l : list (num * mat)) acc, length acc = n -> (forall x, In x l -> length (snd x) = n) ->
  length (fold_left (fun acc wj => mat_zip add acc (mat_map (mul (h (fst wj))) (snd wj))) l acc) = n.
Proof.
  induction l as [|x l IH]; intros acc L H; simpl; auto. apply IH; [|intros; apply H; now right].
  apply zip_len; auto. rewrite map_len. apply H. now left.
Qed.

Lemma Forall2_in_r {B C} (P : B -> C -> Prop) l l' y : Forall2 P l l' -> In y l' -> exists x, In x l /\ P x y.
Proof. intros F. induction F as [|x y' l l' H F IH]; [easy|]. intros [<-|I]; [exists x; split; [now left|auto]|]. destruct (IH I) as (x' & I' & H'). exists x'. split; [now right|auto]. Qed.

Lemma com_jac_len s jids wb J : is_com_jacobian R root jsorted ms s jids wb J -> length J = 3.
Proof.
  intros (Js & F & ->). unfold mean_mat. rewrite map_length. apply (fold_zip_len 3 (fun x => x)); [apply repeat_length|].
  intros x I. apply in_map_iff in I. destruct I as ([ni J'] & <- & I). cbn [snd]. apply in_combine_r in I.
  destruct (Forall2_in_r _ _ _ _ F I) as (ni' & _ & [[L _] _]). exact L.
Qed.
Lemma forced_mat_len s jids wb actions forces J0 Js : length J0 = 3 -> Forall2 (named_jac s IGNORE jids wb) actions Js ->
  length (forced_mat mass J0 (combine forces Js)) = 3.
Proof.
  intros L0 F. unfold forced_mat. destruct (combine forces Js) as [|x l] eqn:E; auto. rewrite map_length.
  apply (fold_zip_len 3 (fun x => div x mass)); auto.
  intros y I. rewrite <- E in I. destruct y as [f J]. apply in_combine_r in I. destruct (Forall2_in_r _ _ _ _ F I) as (e & _ & (n & _ & [[L _] _])). exact L.
Qed.

Lemma solve_com_ok qs jids actions forces wj s m m' P J :
  Rep s m -> has_com ms s -> (forall k, In k jids -> k < length jsorted) ->
  solve_com_forward_kinematics qs jids actions forces true wj m = (m', Ok (P, J)) ->
  (exists cs, P = map v_list cs /\ length cs = length qs /\
     forall a q c, nth_error qs a = Some q -> nth_error cs a = Some c ->
       exists com ps, is_com R root jsorted ms (at_waypoint jids true q s) com /\ Forall2 (named_pose (at_waypoint jids true q s)) actions ps /\
         c = forced_point mass com (combine forces (map position ps))) /\
  (wj = true -> exists Bs, J = concat Bs /\ length Bs = length qs /\ (forall B, In B Bs -> length B = 3) /\
     forall a q B, nth_error qs a = Some q -> nth_error Bs a = Some B -> forced_jac (at_waypoint jids true q s) jids actions forces true B).
Proof.
  intros HR Hc Hk E. unfold solve_com_forward_kinematics in E. set (n := length qs) in *.
  set (okp := fun a c => exists q com ps, nth_error qs a = Some q /\ is_com R root jsorted ms (at_waypoint jids true q s) com /\
     Forall2 (named_pose (at_waypoint jids true q s)) actions ps /\ c = forced_point mass com (combine forces (map position ps))).
  set (okj := fun a B => exists q, nth_error qs a = Some q /\ forced_jac (at_waypoint jids true q s) jids actions forces true B).
  set (Inv := fun (i : nat) (PJ : mat * mat) =>
    (exists cs rest, fst PJ = map v_list cs ++ rest /\ length rest = n - i /\ (forall row, In row rest -> length row = 3) /\ length cs = i /\
       forall a c, nth_error cs a = Some c -> okp a c) /\
    exists Bs rest, snd PJ = concat Bs ++ rest /\ length rest = 3 * (n - i) /\ (forall B, In B Bs -> length B = 3) /\ length Bs = i /\
       (wj = true -> forall a B, nth_error Bs a = Some B -> okj a B)).
  assert (X : Inv n (P, J)).
  { apply (waypoint_inv R root sorted jsorted ms mass jids true false
       (fun i acc => com <- get_com ;;
          B <- (if wj then get_com_jacobian jids true else ret (mat_zero 3 (length jids + 6))) ;;
          r <- apply_forces jids actions forces true wj com B ;;
          P <- lift (mat_set_row i 0 (v_list (fst r)) (fst acc)) ;;
          J <- lift (mat_set_block (3 * i) (snd r) (snd acc)) ;; ret (P, J))
       qs s Inv) with (m := m) (m' := m') (acc := (mat_zero n 3, mat_zero (3 * n) (length jids + 6))); auto.
    - intros i acc. qgo; auto using query_get_com, query_get_com_jacobian, query_apply_forces.
    - intros i q [P0 J0] PJ' m1 m2 Eq R1 G1 _ _ _ ((cs & rest & EP & Lr & Hr & Lp & Hp) & Bs & rs & EJ & Lrs & HBl & LB & HB) X.
      cbn [fst snd] in *. subst P0 J0. assert (Li : i < n) by (eapply nth_error_lt; eauto).
      apply bind_inv_ok in X. destruct X as (m3 & com & X1 & X). apply bind_inv_ok in X. destruct X as (m4 & B & X2 & X).
      apply bind_inv_ok in X. destruct X as (m5 & [c B'] & X3 & X). cbn [fst snd] in X.
      apply bind_inv_ok in X. destruct X as (m6 & P1 & X4 & X). apply bind_inv_ok in X. destruct X as (m7 & J1 & X5 & X6).
      apply lift_inv in X4. destruct X4 as [-> X4]. apply lift_inv in X5. destruct X5 as [-> X5]. inversion X6; subst m2 PJ'. clear X6.
      pose proof (get_com_ok _ _ _ _ _ _ _ _ _ _ R1 G1 (has_com_waypoint ms jids true q s Hc) X1) as HC.
      destruct (query_keeps _ _ _ _ _ _ _ _ _ _ _ query_get_com R1 G1 X1) as [R3 G3].
      assert (R4 : (Rep (at_waypoint jids true q s) m4 /\ Good m4) /\ length B = 3 /\
                   (wj = true -> is_com_jacobian R root jsorted ms (at_waypoint jids true q s) jids true B)).
      { destruct wj.
        - pose proof (get_com_jacobian_ok _ _ _ _ _ _ _ _ _ _ _ _ R3 G3 Hk X2) as HJ.
          split; [exact (query_keeps _ _ _ _ _ _ _ _ _ _ _ (query_get_com_jacobian jids true) R3 G3 X2)|]. split; auto. eapply com_jac_len; eauto.
        - inversion X2; subst. split; auto. split; [reflexivity|discriminate]. }
      destruct R4 as ((R4 & G4) & LB3 & HJ).
      destruct (apply_forces_ok jids actions forces true wj _ com B m4 m5 c B' Hk R4 G4 X3) as (_ & _ & ps & Js & Fp & Ec & HF1 & HF0).
      assert (LB' : length B' = 3).
      { destruct wj; [destruct (HF1 eq_refl) as [FJ ->]; eapply forced_mat_len; eauto | now rewrite (HF0 eq_refl)]. }
      split.
      + cbn [fst]. rewrite <- Lp in X4. rewrite <- (map_length v_list cs) in X4.
        destruct (mat_set_row_app 3 (v_list c) _ _ _ eq_refl ltac:(lia) Hr X4) as [L0 ->].
        exists (cs ++ [c]), (skipn 1 rest). split; [rewrite map_app, <- app_assoc; reflexivity|].
        split; [rewrite skipn_length; lia|]. split; [intros row Ir; apply Hr; destruct rest; simpl in *; auto|].
        split; [rewrite app_length; simpl; lia|]. intros a c' Ea. destruct (Nat.lt_ge_cases a (length cs)) as [La|La].
        * rewrite nth_error_app1 in Ea by auto. auto.
        * pose proof (nth_error_lt _ _ _ Ea) as La'. rewrite app_length in La'. simpl in La'.
          rewrite nth_error_app2 in Ea by auto. replace (a - length cs) with 0 in Ea by lia. inversion Ea; subst c'.
          exists q, com, ps. replace a with i by lia. auto.
      + cbn [snd]. assert (LcB : length (concat Bs) = 3 * i) by (rewrite (concat_block_length Bs 3 HBl), LB; lia).
        rewrite <- LcB in X5. destruct (mat_set_block_app _ _ _ _ X5) as [L0 ->]. rewrite LB' in *.
        exists (Bs ++ [B']), (skipn 3 rs). split; [rewrite concat_app; simpl; rewrite app_nil_r, <- app_assoc; reflexivity|].
        split; [rewrite skipn_length; lia|].
        split; [intros B0 IB; apply in_app_or in IB; destruct IB as [IB|[<-|[]]]; auto|].
        split; [rewrite app_length; simpl; lia|]. intros Hw a B0 Ea. destruct (Nat.lt_ge_cases a (length Bs)) as [La|La].
        * rewrite nth_error_app1 in Ea by auto. auto.
        * pose proof (nth_error_lt _ _ _ Ea) as La'. rewrite app_length in La'. simpl in La'.
          rewrite nth_error_app2 in Ea by auto. replace (a - length Bs) with 0 in Ea by lia. inversion Ea; subst B0.
          exists q. replace a with i by lia. split; auto. destruct (HF1 Hw) as [FJ ->]. exists B, Js. auto.
    - split.
      + exists [], (mat_zero n 3). split; auto. unfold mat_zero. rewrite repeat_length. split; [lia|].
        split; [intros row Ir; apply repeat_spec in Ir; subst; reflexivity|]. split; auto. intros [|a]; discriminate.
      + exists [], (mat_zero (3 * n) (length jids + 6)). split; auto. unfold mat_zero. rewrite repeat_length. split; [lia|].
        split; [easy|]. split; auto. intros _ [|a]; discriminate. }
  destruct X as ((cs & rest & EP & Lr & _ & Lp & Hp) & Bs & rs & EJ & Lrs & HBl & LB & HB). cbn [fst snd] in *. rewrite Nat.sub_diag in *. simpl in Lr, Lrs.
  destruct rest; [|discriminate]. destruct rs; [|discriminate]. rewrite app_nil_r in *. split.
  - exists cs. split; auto. split; auto. intros a q c Eq Ec. destruct (Hp a c Ec) as (q' & com & ps & Eq' & H1 & H2 & H3).
    assert (q' = q) by congruence. subst q'. exists com, ps. auto.
  - intros Hw. exists Bs. split; auto. split; auto. split; auto. intros a q B Eq EB. destruct (HB Hw a B EB) as (q' & Eq' & H).
    assert (q' = q) by congruence. now subst q'.
Qed.

(** ** compute_inter_link_squared_dists *)
Definition sqdist_at (s : AState) (e1 e2 : nat) (d : num) : Prop :=
  exists p1 p2, named_pose s e1 p1 /\ named_pose s e2 p2 /\ d = sq_norm (v_sub (position p1) (position p2)).
Definition grad_at (s : AState) (jids : list nat) (wb : bool) (e1 e2 : nat) (g : list num) : Prop :=
  exists p1 p2 J1 J2, named_pose s e1 p1 /\ named_pose s e2 p2 /\ named_jac s IGNORE jids wb e1 J1 /\ named_jac s IGNORE jids wb e2 J2 /\
    g = grad_row (length jids + if wb then 6 else 0) J1 J2 (v_sub (position p1) (position p2)).

Lemma vset_app {B} (dn rest : list B) x P' : vset (dn ++ rest) (length dn) x = Ok P' ->
  0 < length rest /\ P' = (dn ++ [x]) ++ skipn 1 rest.
Proof.
  intros E. destruct rest as [|r rest].
  - rewrite app_nil_r, vset_ub in E by lia. discriminate.
  - rewrite vset_lt in E by (rewrite app_length; simpl; lia). rewrite list_set_app in E. inversion E; subst.
    split; [simpl; lia|]. rewrite <- app_assoc. reflexivity.
Qed.

Lemma glue {B} (ds ds1 rest : list B) d n : ((ds ++ [d]) ++ ds1) ++ skipn n (skipn 1 rest) = (ds ++ d :: ds1) ++ skipn (S n) rest.
Proof. rewrite <- (app_assoc ds [d]). f_equal. destruct rest; [now rewrite !skipn_nil|reflexivity]. Qed.

Lemma sq_loop ids2 jids (wb wg : bool) s base n : (forall k, In k jids -> k < length jsorted) -> n = length jids + (if wb then 6 else 0) ->
  forall ids1 k m m' (ds rest : list num) (gs grest : mat) r, Rep s m -> Good m -> length ds = base + k -> (wg = true -> length gs = base + k) ->
  for_each (combine (seq k (length ids1)) ids1) (ds ++ rest, gs ++ grest) (fun (jl : nat * nat) (acc : list num * mat) =>
         let head := base + fst jl in
         id2 <- lift (vget ids2 (fst jl)) ;;
         p1 <- get_link_pose (snd jl) ;;
         p2 <- get_link_pose id2 ;;
         let diff := v_sub (position p1) (position p2) in
         sd <- lift (vset (fst acc) head (sq_norm diff)) ;;
         if wg then
           jac1 <- get_jacobian (snd jl) jids IGNORE wb ;;
           jac2 <- get_jacobian id2 jids IGNORE wb ;;
           g <- lift (vset (snd acc) head (grad_row n jac1 jac2 diff)) ;;
           ret (sd, g)
         else ret (sd, snd acc)) m = (m', Ok r) ->
  exists ds1 gs1, length ds1 = length ids1 /\ fst r = (ds ++ ds1) ++ skipn (length ids1) rest /\ length ids1 <= length rest /\
    (forall j e1, nth_error ids1 j = Some e1 -> exists e2 d, nth_error ids2 (k + j) = Some e2 /\ nth_error ds1 j = Some d /\ sqdist_at s e1 e2 d) /\
    (wg = false -> snd r = gs ++ grest) /\
    (wg = true -> length gs1 = length ids1 /\ snd r = (gs ++ gs1) ++ skipn (length ids1) grest /\ length ids1 <= length grest /\
       forall j e1, nth_error ids1 j = Some e1 -> exists e2 g, nth_error ids2 (k + j) = Some e2 /\ nth_error gs1 j = Some g /\ grad_at s jids wb e1 e2 g).
Proof.
  intros Hk Hn. induction ids1 as [|e ids1 IH]; intros k m m' ds rest gs grest r HR G Ld Lg E.
  - simpl in E. inversion E; subst. exists [], []. cbn [fst snd length]. rewrite !app_nil_r.
    split; auto. split; auto. split; [lia|]. split; [intros [|j]; discriminate|]. split; auto. intros _.
    split; auto. split; auto. split; [lia|]. intros [|j]; discriminate.
  - simpl length in *. simpl seq in E. simpl combine in E. rewrite for_each_cons in E.
    apply bind_inv_ok in E. destruct E as (m1 & acc1 & E1 & E). cbv zeta in E1. cbn [fst snd] in E1.
    destruct (vget ids2 k) as [e2| | |] eqn:Ee; try discriminate E1. rewrite (bind_lift_ok _ _ _ _ eq_refl) in E1. apply vget_ok in Ee.
    apply bind_inv_ok in E1. destruct E1 as (m2 & p1 & X1 & E1). apply bind_inv_ok in E1. destruct E1 as (m3 & p2 & X2 & E1).
    apply bind_inv_ok in E1. destruct E1 as (m4 & sd & X3 & E1). apply lift_inv in X3. destruct X3 as [-> X3].
    rewrite <- Ld in X3. destruct (vset_app _ _ _ _ X3) as [Lr ->].
    pose proof (get_link_pose_named _ _ _ _ _ _ _ _ _ _ _ HR G X1) as N1.
    destruct (query_keeps _ _ _ _ _ _ _ _ _ _ _ (query_get_link_pose e) HR G X1) as [R2 G2].
    pose proof (get_link_pose_named _ _ _ _ _ _ _ _ _ _ _ R2 G2 X2) as N2.
    destruct (query_keeps _ _ _ _ _ _ _ _ _ _ _ (query_get_link_pose e2) R2 G2 X2) as [R3 G3].
    set (d := sq_norm (v_sub (position p1) (position p2))) in *.
    assert (Hd : sqdist_at s e e2 d) by (exists p1, p2; auto).
    destruct wg.
    + apply bind_inv_ok in E1. destruct E1 as (m5 & J1 & Y1 & E1). apply bind_inv_ok in E1. destruct E1 as (m6 & J2 & Y2 & E1).
      apply bind_inv_ok in E1. destruct E1 as (m7 & g & Y3 & E1). apply lift_inv in Y3. destruct Y3 as [-> Y3]. inversion E1; subst m1 acc1. clear E1.
      specialize (Lg eq_refl). rewrite <- Lg in Y3. destruct (vset_app _ _ _ _ Y3) as [Lgr ->].
      destruct (query_keeps _ _ _ _ _ _ _ _ _ _ _ (query_get_jacobian e jids IGNORE wb) R3 G3 Y1) as [R5 G5].
      destruct (query_keeps _ _ _ _ _ _ _ _ _ _ _ (query_get_jacobian e2 jids IGNORE wb) R5 G5 Y2) as [R6 G6].
      pose proof (jacobian_is _ _ _ _ _ _ _ _ _ _ _ _ _ _ R3 G3 Hk Y1) as NJ1. pose proof (jacobian_is _ _ _ _ _ _ _ _ _ _ _ _ _ _ R5 G5 Hk Y2) as NJ2.
      set (g := grad_row n J1 J2 (v_sub (position p1) (position p2))) in *.
      assert (Hg : grad_at s jids wb e e2 g) by (exists p1, p2, J1, J2; unfold g; rewrite Hn; auto 8).
      destruct (IH (S k) m6 m' (ds ++ [d]) (skipn 1 rest) (gs ++ [g]) (skipn 1 grest) r R6 G6) as (ds1 & gs1 & L1 & F1 & L1' & D1 & F0 & H1); auto;
        try (intros; rewrite app_length; simpl; lia).
      destruct (H1 eq_refl) as (L2 & F2 & L2' & D2). rewrite skipn_length in *.
      exists (d :: ds1), (g :: gs1). split; [simpl; lia|]. rewrite F1, F2. split; [apply glue|]. split; [lia|].
      split; [|split; [discriminate|]].
      * intros [|j] e1 Ej; simpl in Ej; [inversion Ej; subst; exists e2, d; rewrite Nat.add_0_r; auto|].
        rewrite Nat.add_succ_r. apply D1. exact Ej.
      * intros _. split; [simpl; lia|]. split; [apply glue|]. split; [lia|].
        intros [|j] e1 Ej; simpl in Ej; [inversion Ej; subst; exists e2, g; rewrite Nat.add_0_r; auto|].
        rewrite Nat.add_succ_r. apply D2. exact Ej.
    + inversion E1; subst m1 acc1. clear E1. cbn [snd] in E.
      destruct (IH (S k) m3 m' (ds ++ [d]) (skipn 1 rest) gs grest r R3 G3) as (ds1 & gs1 & L1 & F1 & L1' & D1 & F0 & H1); auto;
        try (intros; rewrite app_length; simpl; lia); try discriminate.
      rewrite skipn_length in *.
      exists (d :: ds1), gs1. split; [simpl; lia|]. rewrite F1. split; [apply glue|]. split; [lia|].
      split; [|split; [auto|discriminate]].
      intros [|j] e1 Ej; simpl in Ej; [inversion Ej; subst; exists e2, d; rewrite Nat.add_0_r; auto|].
      rewrite Nat.add_succ_r. apply D1. exact Ej.
Qed.

Lemma sqdists_ok qs ids1 ids2 jids wb wg uc s m m' D Gr :
  Rep s m -> (wb || negb uc)%bool = true -> (forall k, In k jids -> k < length jsorted) ->
  compute_inter_link_squared_dists qs ids1 ids2 jids wb wg uc m = (m', Ok (D, Gr)) ->
  length D = length qs * length ids1 /\
  (forall a b q e1, nth_error qs a = Some q -> nth_error ids1 b = Some e1 ->
     exists e2 d, nth_error ids2 b = Some e2 /\ nth_error D (a * length ids1 + b) = Some d /\ sqdist_at (at_waypoint jids wb q s) e1 e2 d) /\
  (wg = true -> length Gr = length qs * length ids1 /\ forall a b q e1, nth_error qs a = Some q -> nth_error ids1 b = Some e1 ->
     exists e2 g, nth_error ids2 b = Some e2 /\ nth_error Gr (a * length ids1 + b) = Some g /\ grad_at (at_waypoint jids wb q s) jids wb e1 e2 g).
Proof.
  intros HR Hcl Hk E. unfold compute_inter_link_squared_dists in E. set (w := length ids1) in *. set (n := length qs) in *.
  set (nj := length jids + if wb then 6 else 0) in *.
  set (okd := fun a b d => exists q e1 e2, nth_error qs a = Some q /\ nth_error ids1 b = Some e1 /\ nth_error ids2 b = Some e2 /\ sqdist_at (at_waypoint jids wb q s) e1 e2 d).
  set (okg := fun a b g => exists q e1 e2, nth_error qs a = Some q /\ nth_error ids1 b = Some e1 /\ nth_error ids2 b = Some e2 /\ grad_at (at_waypoint jids wb q s) jids wb e1 e2 g).
  set (Inv := fun (i : nat) (DG : list num * mat) =>
    (exists ds rest, fst DG = ds ++ rest /\ length rest = (n - i) * w /\ length ds = i * w /\
       forall a b d, a < i -> b < w -> nth_error ds (a * w + b) = Some d -> okd a b d) /\
    (wg = true -> exists gs rest, snd DG = gs ++ rest /\ length rest = (n - i) * w /\ length gs = i * w /\
       forall a b g, a < i -> b < w -> nth_error gs (a * w + b) = Some g -> okg a b g)).
  assert (X : Inv n (D, Gr)).
  { apply (waypoint_inv R root sorted jsorted ms mass jids wb (negb uc)
       (fun i acc => for_each (enumerate ids1) acc (fun jl acc =>
         let head := i * w + fst jl in
         id2 <- lift (vget ids2 (fst jl)) ;;
         p1 <- get_link_pose (snd jl) ;;
         p2 <- get_link_pose id2 ;;
         let diff := v_sub (position p1) (position p2) in
         sd <- lift (vset (fst acc) head (sq_norm diff)) ;;
         if wg then
           jac1 <- get_jacobian (snd jl) jids IGNORE wb ;;
           jac2 <- get_jacobian id2 jids IGNORE wb ;;
           g <- lift (vset (snd acc) head (grad_row nj jac1 jac2 diff)) ;;
           ret (sd, g)
         else ret (sd, snd acc)))
       qs s Inv) with (m := m) (m' := m') (acc := (repeat n0 (w * n), if wg then mat_zero (w * n) nj else mat_zero 1 1)); auto.
    - intros i acc. cbv zeta. qgo; apply query_get_jacobian.
    - intros i q [D0 G0] DG' m1 m2 Eq R1 G1 _ _ _ ((ds & rest & ED & Lr & Ld & Hd) & HG) X. cbn [fst snd] in *.
      assert (Li : i < n) by (eapply nth_error_lt; eauto). subst D0. unfold enumerate in X.
      assert (HG' : exists gs grest, G0 = gs ++ grest /\ (wg = true -> length gs = i * w + 0 /\ length grest = (n - i) * w /\
          forall a b g, a < i -> b < w -> nth_error gs (a * w + b) = Some g -> okg a b g)).
      { destruct wg; [destruct (HG eq_refl) as (gs & gr & -> & L1 & L2 & H); exists gs, gr; split; auto; intros _; split; [lia|auto] |
          exists [], G0; split; auto; discriminate]. }
      destruct HG' as (gs & grest & -> & HG').
      destruct (sq_loop ids2 jids wb wg (at_waypoint jids wb q s) (i * w) nj Hk eq_refl ids1 0 m1 m2 ds rest gs grest DG' R1 G1) as (ds1 & gs1 & L1 & F1 & L1' & D1 & F0 & H1).
      { lia. } { intros Hw. apply (HG' Hw). } { exact X. }
      fold w in L1, F1, L1', H1. split.
      + exists (ds ++ ds1), (skipn w rest). split; auto. split; [rewrite skipn_length, Lr; replace (n - i) with (S (n - S i)) by lia; simpl; lia|].
        apply grid_grow; auto. intros b d Lb Ed. destruct (lt_nth_error ids1 b Lb) as (e1 & Ee). destruct (D1 b e1 Ee) as (e2 & d' & E2 & Ed' & H).
        assert (d' = d) by congruence. subst d'. exists q, e1, e2. auto.
      + intros Hw. destruct (HG' Hw) as (Lg & Lgr & Hg). destruct (H1 Hw) as (L2 & F2 & L2' & D2).
        exists (gs ++ gs1), (skipn w grest). split; auto. split; [rewrite skipn_length, Lgr; replace (n - i) with (S (n - S i)) by lia; simpl; lia|].
        apply grid_grow; auto; [lia|]. intros b d Lb Ed. destruct (lt_nth_error ids1 b Lb) as (e1 & Ee). destruct (D2 b e1 Ee) as (e2 & d' & E2 & Ed' & H).
        assert (d' = d) by congruence. subst d'. exists q, e1, e2. auto.
    - split; cbn [fst snd].
      + exists [], (repeat n0 (w * n)). split; auto. rewrite repeat_length. split; [lia|]. split; auto. intros; lia.
      + intros ->. exists [], (mat_zero (w * n) nj). split; auto. unfold mat_zero. rewrite repeat_length. split; [lia|]. split; auto. intros; lia. }
  destruct X as ((ds & rest & ED & Lr & Ld & Hd) & HG). cbn [fst snd] in *. rewrite Nat.sub_diag in *. simpl in Lr.
  destruct rest; [|discriminate]. rewrite app_nil_r in ED. subst ds. split; auto. split.
  - intros a b q e1 Eq Ee. pose proof (nth_error_lt _ _ _ Eq) as La. pose proof (nth_error_lt _ _ _ Ee) as Lb.
    destruct (lt_nth_error D (a * w + b)) as (d & Ed); [rewrite Ld; now apply split_index|].
    destruct (Hd a b d La Lb Ed) as (q' & e1' & e2 & X1 & X2 & X3 & X4). assert (q' = q) by congruence. assert (e1' = e1) by congruence. subst. exists e2, d. auto.
  - intros Hw. destruct (HG Hw) as (gs & gr & EG & Lg & Lgs & Hg). destruct gr; [|discriminate]. rewrite app_nil_r in EG. subst gs. split; auto.
    intros a b q e1 Eq Ee. pose proof (nth_error_lt _ _ _ Eq) as La. pose proof (nth_error_lt _ _ _ Ee) as Lb.
    destruct (lt_nth_error Gr (a * w + b)) as (d & Ed); [rewrite Lgs; now apply split_index|].
    destruct (Hg a b d La Lb Ed) as (q' & e1' & e2 & X1 & X2 & X3 & X4). assert (q' = q) by congruence. assert (e1' = e1) by congruence. subst. exists e2, d. auto.
Qed.
End Wrap2.
