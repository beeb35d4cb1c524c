(** Lifetime of links. *)
From Coq Require Import String Ascii List Arith Bool Lia.
From Verif Require Import Base Num Pose DataStructure Urdf Kin Heap Spec_Robot Spec_Load Spec_Graph Spec_Heap Pf_Base Pf_Data Inv Pf_Urdf Pf_Ctor Pf_Add Pf_Load Pf_Loop Pf_Dag Pf_Heap Pf_Heap2 Pf_Heap3.
Import ListNotations.
Local Open Scope m_scope.

Section PfHeap4.
Context `{A : Arith}.
Variable tinyxml : string -> option (list xml).

(** ** calls that do not change which links a model points to *)
Definition kpt (k k' : KM) : Prop := joints k' = joints k /\ com_dummy_links k' = com_dummy_links k.
Definition same_k {B} (f : M KM B) : Prop := forall k, kpt k (fst (f k)).
Lemma kpt_refl k : kpt k k. Proof. split; reflexivity. Qed.
Lemma kpt_trans a b c : kpt a b -> kpt b c -> kpt a c. Proof. intros (H1 & H2) (H3 & H4). split; congruence. Qed.
Lemma sk_bind {B C} (f : M KM B) (k : B -> M KM C) : same_k f -> (forall b, same_k (k b)) -> same_k (bind f k).
Proof. intros Hf Hk h. unfold bind. specialize (Hf h). destruct (f h) as [h1 [b|x|u|]]; cbn [fst] in *; auto. eapply kpt_trans; [exact Hf | apply Hk]. Qed.
Lemma sk_ret {B} (b : B) : same_k (ret b). Proof. intros h. apply kpt_refl. Qed.
Lemma sk_lift {B} (r : res B) : same_k (lift r). Proof. intros h. destruct r; apply kpt_refl. Qed.
Lemma sk_get {B} (f : KM -> M KM B) : (forall m, kpt m (fst (f m m))) -> same_k (bind get f). Proof. intros H h. rewrite bind_get. apply H. Qed.
Lemma sk_for_each {X B} (body : X -> B -> M KM B) l : (forall x b, same_k (body x b)) -> forall b, same_k (for_each l b body).
Proof. intros H. induction l as [|x l IH]; intros b; cbn [for_each]; [apply sk_ret|]. apply sk_bind; auto. Qed.
Lemma sk_read {B} (g : KM -> res B) : same_k (bind get (fun m => lift (g m))).
Proof. apply sk_get. intros m. apply sk_lift. Qed.
Lemma sk_clear : same_k clear_cache. Proof. intros k. split; reflexivity. Qed.
Lemma sk_angles_nc jids a : same_k (set_joint_angles_nc jids a).
Proof.
  unfold set_joint_angles_nc. apply sk_for_each. intros [i j] _. apply sk_get. intros m. cbn [fst snd]. unfold bind, lift. destruct (vget a i); try apply kpt_refl.
  destruct (vset (joint_angles m) j _); try apply kpt_refl. split; reflexivity.
Qed.
Lemma sk_angles jids a : same_k (set_joint_angles jids a).
Proof. apply sk_bind; [apply sk_angles_nc | intros; apply sk_clear]. Qed.
Lemma sk_angle j a : same_k (set_joint_angle j a).
Proof. apply sk_get. intros m. unfold bind, lift. destruct (vset (joint_angles m) j a); try apply kpt_refl. split; reflexivity. Qed.
Lemma sk_base_nc p : same_k (set_base_pose_nc p). Proof. intros k. split; reflexivity. Qed.
Lemma sk_base p : same_k (set_base_pose p). Proof. intros k. split; reflexivity. Qed.
Lemma sk_init : same_k set_init_angles. Proof. intros k. split; reflexivity. Qed.

Definition same_links {B} (f : M HM B) : Prop := forall h, hlinks (fst (f h)) = hlinks h /\ kpt (hk h) (hk (fst (f h))).
Lemma sl_bind {B C} (f : M HM B) (k : B -> M HM C) : same_links f -> (forall b, same_links (k b)) -> same_links (bind f k).
Proof.
  intros Hf Hk h. unfold bind. specialize (Hf h). destruct (f h) as [h1 [b|x|u|]]; cbn [fst] in *; auto. destruct Hf as (E & K), (Hk b h1) as (E1 & K1).
  split; [congruence | eapply kpt_trans; eauto].
Qed.
Lemma sl_ret {B} (b : B) : same_links (ret b). Proof. intros h. split; [reflexivity | apply kpt_refl]. Qed.
Lemma sl_lift {B} (r : res B) : same_links (lift r). Proof. intros h. destruct r; (split; [reflexivity | apply kpt_refl]). Qed.
Lemma sl_get : same_links get. Proof. intros h. split; [reflexivity | apply kpt_refl]. Qed.
Lemma sl_onk {B} (f : M KM B) : same_k f -> same_links (onk f). Proof. intros H h. unfold onk. specialize (H (hk h)). destruct (f (hk h)). split; auto. Qed.
Lemma sl_for_each {X B} (body : X -> B -> M HM B) l : (forall x b, same_links (body x b)) -> forall b, same_links (for_each l b body).
Proof. intros H. induction l as [|x l IH]; intros b; cbn [for_each]; [apply sl_ret|]. apply sl_bind; auto. Qed.
Ltac sl_with t := repeat first [t | apply sl_bind; [|intros ?] | apply sl_ret | apply sl_lift | apply sl_get | apply sl_for_each; intros ? ? | match goal with |- same_links (if ?b then _ else _) => destruct b | |- same_links (let '(_, _) := ?x in _) => destruct x | |- same_links (match ?o with Some _ => _ | None => _ end) => destruct o end ].
Ltac sl := sl_with fail.

Lemma sl_inner hp i : same_links (h_get_link_pose_inner hp i).
Proof.
  intros h. unfold h_get_link_pose_inner. destruct (let? a := vget (hlinks h) i in _) as [[stk tf]|x|u|]; try (split; [reflexivity | apply kpt_refl]).
  destruct (unwind _ _ _ _) as [[[s c] t]|x|u|]; (split; [reflexivity | split; reflexivity]).
Qed.
Lemma sl_pose hp i : same_links (h_get_link_pose hp i).
Proof. unfold h_get_link_pose. sl. apply sl_inner. Qed.
Lemma sl_jac hp i jids rt wb : same_links (h_get_jacobian hp i jids rt wb).
Proof. unfold h_get_jacobian, h_jacobian_joint, h_jacobian_base. cbv zeta. sl_with ltac:(apply sl_pose). Qed.
Lemma sl_com hp : same_links (h_get_com hp).
Proof. unfold h_get_com. sl_with ltac:(apply sl_pose). Qed.
Lemma sl_com_jac hp jids wb : same_links (h_get_com_jacobian hp jids wb).
Proof. unfold h_get_com_jacobian. cbv zeta. sl_with ltac:(apply sl_jac). Qed.
Lemma sl_inertia hp : same_links (h_get_total_inertia_matrix hp).
Proof. unfold h_get_total_inertia_matrix. sl_with ltac:(first [apply sl_com | apply sl_pose]). Qed.
Lemma sl_names hp : same_links (h_get_link_names hp).
Proof. unfold h_get_link_names. sl. Qed.
Lemma sl_update hp : same_links (h_update_rptable hp).
Proof. intros h. unfold h_update_rptable. rewrite bind_get. unfold bind. destruct (lift _ h) as [h1 r] eqn:E. unfold lift in E. destruct (rfor _ _ _); injection E as <- <-; (split; [reflexivity | split; reflexivity]). Qed.
Lemma reading_links {B} (g : Heap -> M HM B) hp h : (forall p, same_links (g p)) -> fst (fst (reading g (hp, h))) = hp /\ hlinks (snd (fst (reading g (hp, h)))) = hlinks h /\ kpt (hk h) (hk (snd (fst (reading g (hp, h))))).
Proof. intros H. unfold reading. cbn [fst snd]. specialize (H hp h). destruct (g hp h) as [h1 r]. auto. Qed.
Lemma reads_links c hp h : adds c = false -> fst (fst (h_call c (hp, h))) = hp /\ hlinks (snd (fst (h_call c (hp, h)))) = hlinks h /\ kpt (hk h) (hk (snd (fst (h_call c (hp, h))))).
Proof.
  intros Ac. destruct c; try discriminate; cbn [h_call];
  match goal with |- context [giving ?f (reading ?g)] => destruct (adding_giving f (reading g) (hp, h)) as (-> & _); apply reading_links; intros ? end;
  first [apply sl_onk; first [apply sk_angles | apply sk_angles_nc | apply sk_angle | apply sk_base | apply sk_base_nc | apply sk_clear | apply sk_init | apply sk_read | apply sk_get; intros ?; apply kpt_refl] | apply sl_names | apply sl_pose | apply sl_jac | apply sl_com | apply sl_com_jac | apply sl_inertia].
Qed.

(** ** what adding a link does to the heap *)
Inductive grew (hp : Heap) (h : HM) : Heap -> HM -> Prop :=
| grew_none k : kpt (hk h) k -> grew hp h hp (mkHM k (hlinks h))
| grew_one k pa p nl : kpt (hk h) k -> nth_error hp pa = Some (Some p) -> In pa (hlinks h) -> l_children nl = [] -> l_parent nl = Some pa ->
    grew hp h (list_set (hp ++ [Some nl]) pa (Some (push_child (length hp) p))) (mkHM k (hlinks h ++ [length hp])).

Lemma eta_HM (h : HM) : h = mkHM (hk h) (hlinks h). Proof. now destruct h. Qed.
Lemma add_grew name p pose (hp : Heap) h : (forall a, In a (hlinks h) -> a < length hp) -> grew hp h (fst (fst (h_add_new_link_pose name p pose (hp, h)))) (snd (fst (h_add_new_link_pose name p pose (hp, h)))).
Proof.
  intros Hh. assert (Z : grew hp h hp h) by (rewrite (eta_HM h) at 2; constructor; apply kpt_refl).
  unfold h_add_new_link_pose. rewrite bind_get. cbn [fst snd]. destruct (assoc name (link_ids (hk h))); [exact Z|].
  destruct (vget (hlinks h) p) as [pa|x|u|] eqn:Ev; try exact Z. pose proof Ev as Ev1. apply vget_ok in Ev1. rewrite (bind_lift_ok _ _ _ _ eq_refl).
  assert (E2 : vget (hlinks h ++ [length hp]) p = Ok pa) by (apply vget_ok; now apply ptr_more). rewrite (bind_lift_ok _ _ _ _ E2).
  assert (Ip : In pa (hlinks h)) by (eapply nth_error_In; eauto). pose proof (Hh pa Ip) as Lpa.
  set (nl := mkLink _ _ _ _ _ _). destruct (obj (hp ++ [Some nl]) pa) as [pl|x|u|] eqn:Eo; try exact Z. rewrite (bind_lift_ok _ _ _ _ eq_refl), bind_put.
  assert (Epa : nth_error hp pa = Some (Some pl)).
  { unfold obj in Eo. rewrite nth_error_app1 in Eo by auto. destruct (nth_error hp pa) as [[q|]|]; congruence. }
  set (hp2 := list_set _ _ _). set (h2 := mkHM _ _). pose proof (sl_update hp2 h2) as S. unfold bind, reading. cbn [fst snd].
  destruct (h_update_rptable hp2 h2) as [h3 r3]. cbn [fst] in S. destruct S as (S & K). assert (G : grew hp h hp2 h3).
  { rewrite (eta_HM h3), S. unfold h2. cbn [hlinks]. apply grew_one; auto. }
  destruct r3; cbn [ret fst snd]; exact G.
Qed.
Lemma call_grew c (hp : Heap) h : (forall a, In a (hlinks h) -> a < length hp) -> grew hp h (fst (fst (h_call c (hp, h)))) (snd (fst (h_call c (hp, h)))).
Proof.
  intros Hh. destruct (adds c) eqn:Ac.
  - destruct c; try discriminate; cbn [h_call].
    + destruct (adding_giving R_link (h_add_new_link name parent_id pos rpy) (hp, h)) as (-> & _). unfold h_add_new_link. now apply add_grew.
    + destruct (adding_giving R_link (h_add_new_link_pose name parent_id pose) (hp, h)) as (-> & _). now apply add_grew.
  - pose proof (reads_links c hp h Ac) as E. destruct (h_call c (hp, h)) as [[hp2 h2] r]. cbn [fst snd] in *. destruct E as (-> & E2 & K). rewrite (eta_HM h2), E2. now constructor.
Qed.

(** ** cells *)
Definition live (hp : Heap) (a : addr) : Prop := exists l, nth_error hp a = Some (Some l).
Definition edge (hp : Heap) (a c : addr) : Prop := exists l, nth_error hp a = Some (Some l) /\ In c (l_children l).
Definition closed (hp : Heap) : Prop := forall a c, edge hp a c -> live hp c.
Definition acyc (hp : Heap) : Prop := exists rk : addr -> nat, forall a c, edge hp a c -> rk c < rk a.

Lemma live_lt hp a : live hp a -> a < length hp.
Proof. intros (l & E). eapply nth_error_lt; eauto. Qed.

Lemma grew_cell (hp : Heap) pa p nl : nth_error hp pa = Some (Some p) -> l_children nl = [] ->
  let hp2 := list_set (hp ++ [Some nl]) pa (Some (push_child (length hp) p)) in
  (forall a, live hp2 a <-> live hp a \/ a = length hp) /\
  (forall a c, edge hp2 a c <-> edge hp a c \/ a = pa /\ c = length hp) /\
  (forall a l, nth_error hp2 a = Some (Some l) -> (a = length hp /\ l = nl) \/ exists l0, nth_error hp a = Some (Some l0) /\ l_parent l = l_parent l0).
Proof.
  intros Ep En hp2. pose proof (nth_error_lt _ _ _ Ep) as Lp.
  assert (N : forall a, nth_error hp2 a = if Nat.eqb pa a then Some (Some (push_child (length hp) p)) else if Nat.eqb a (length hp) then Some (Some nl) else nth_error hp a).
  { intros a. unfold hp2. rewrite nth_error_list_set. destruct (Nat.eqb_spec pa a).
    - replace (pa <? length (hp ++ [Some nl])) with true; [reflexivity|]. symmetry. apply Nat.ltb_lt. rewrite app_length. lia.
    - destruct (Nat.eqb_spec a (length hp)) as [->|]; [rewrite nth_error_app2, Nat.sub_diag by lia; reflexivity|].
      destruct (Nat.lt_ge_cases a (length hp)) as [L|L]; [now rewrite nth_error_app1|]. rewrite !(proj2 (nth_error_None _ a)); auto. rewrite app_length. cbn [length]. lia. }
  split; [|split].
  - intros a. unfold live. rewrite N. destruct (Nat.eqb_spec pa a) as [<-|]; [split; [intros _; left; eauto | intros _; eauto]|].
    destruct (Nat.eqb_spec a (length hp)) as [->|]; [split; [auto | intros _; eauto]|]. split; [auto | intros [H|H]; [auto | contradiction]].
  - intros a c. unfold edge. rewrite N. destruct (Nat.eqb_spec pa a) as [<-|Na].
    + split.
      * intros (l & E & I). injection E as <-. cbn [push_child l_children] in I. apply in_app_iff in I. destruct I as [I|[<-|[]]]; [left; eauto | right; auto].
      * intros [(l & E & I)|(_ & ->)]; (exists (push_child (length hp) p)); (split; [reflexivity|]); cbn [push_child l_children]; apply in_app_iff.
        -- left. congruence.
        -- right. now left.
    + destruct (Nat.eqb_spec a (length hp)) as [->|].
      * split; [intros (l & E & I); injection E as <-; rewrite En in I; destruct I|]. intros [(l & E & _)|(E & _)]; [pose proof (nth_error_lt _ _ _ E); lia | congruence].
      * split; [auto | intros [H|(H & _)]; [auto | congruence]].
  - intros a l E. rewrite N in E. destruct (Nat.eqb_spec pa a) as [<-|Na]; [injection E as <-; right; exists p; auto|].
    destruct (Nat.eqb_spec a (length hp)) as [->|]; [injection E as <-; auto | right; eauto].
Qed.

(** ** the invariant *)
Record inner (hp : Heap) (h : HM) : Prop := {
  nn_par : forall a l p, In a (hlinks h) -> nth_error hp a = Some (Some l) -> l_parent l = Some p -> In p (hlinks h);
  nn_jc : forall j c, In j (joints (hk h)) -> j_child j = Some c -> In c (hlinks h);
  nn_com : incl (com_dummy_links (hk h)) (hlinks h) }.
Record Life (w : world) : Prop := {
  li_held : forall i h a, nth_error (w_models w) i = Some (Some h) -> In a (hlinks h) -> live (w_heap w) a;
  li_closed : closed (w_heap w);
  li_inner : forall i h, nth_error (w_models w) i = Some (Some h) -> inner (w_heap w) h }.
Record Tidy (w : world) : Prop := {
  ti_acyc : acyc (w_heap w);
  ti_used : forall a, live (w_heap w) a -> in_use w a }.

Lemma reach_mono hp hp2 a b : (forall x y, edge hp x y -> edge hp2 x y) -> reach hp a b -> reach hp2 a b.
Proof. intros H. induction 1 as [|b l c R IH E I]; [constructor|]. destruct (H b c) as (l2 & E2 & I2); [exists l; auto|]. econstructor; eauto. Qed.
Lemma use_mono w w2 a : (forall i h, nth_error (w_models w) i = Some (Some h) -> exists j h2, nth_error (w_models w2) j = Some (Some h2) /\ incl (hlinks h) (hlinks h2)) ->
  (forall x y, edge (w_heap w) x y -> edge (w_heap w2) x y) -> in_use w a -> in_use w2 a.
Proof. intros Hm He (i & h & b & E & I & R). destruct (Hm i h E) as (j & h2 & E2 & Inc). exists j, h2, b. repeat split; auto. eapply reach_mono; eauto. Qed.

(** calls *)
Lemma life_call i c w h : Life w -> nth_error (w_models w) i = Some (Some h) ->
  let s2 := fst (h_call c (w_heap w, h)) in let w2 := mkW (fst s2) (list_set (w_models w) i (Some (snd s2))) in
  Life w2 /\ (Tidy w -> Tidy w2).
Proof.
  intros [Hd Cl Nn] Eh s2 w2. assert (Hh : forall a, In a (hlinks h) -> a < length (w_heap w)) by (intros a I; eapply live_lt; eauto).
  pose proof (call_grew c (w_heap w) h Hh) as G. fold s2 in G. destruct s2 as [hp2 h2]. cbn [fst snd] in G. unfold w2. cbn [fst snd]. clear w2.
  pose proof (nth_error_lt _ _ _ Eh) as Li.
  assert (B : forall h2 j k, nth_error (list_set (w_models w) i (Some h2)) j = Some (Some k) -> (j = i /\ k = h2) \/ nth_error (w_models w) j = Some (Some k)).
  { intros h2' j k E. rewrite nth_error_list_set in E. destruct (Nat.eqb_spec i j) as [<-|]; auto. destruct (i <? length (w_models w)); [|discriminate]. injection E as <-. auto. }
  assert (B2 : forall h2, incl (hlinks h) (hlinks h2) -> forall j k, nth_error (w_models w) j = Some (Some k) -> exists j' k', nth_error (list_set (w_models w) i (Some h2)) j' = Some (Some k') /\ incl (hlinks k) (hlinks k')).
  { intros h2' Inc j k E. destruct (Nat.eq_dec i j) as [<-|Nj].
    - exists i, h2'. split; [now rewrite nth_error_list_set_eq by auto|]. replace k with h by congruence. exact Inc.
    - exists j, k. split; [now rewrite nth_error_list_set_ne by auto | apply incl_refl]. }
  inversion G as [k K E1 E2|k pa p nl K Ep Ip En En2 E1 E2]; subst.
  - split.
    + constructor; cbn [w_heap w_models]; auto.
      * intros j g a E I. apply B in E. destruct E as [(-> & ->)|E]; [cbn [hlinks] in I|]; eauto.
      * intros j g E. apply B in E. destruct E as [(-> & ->)|E]; [|eauto]. destruct (Nn i h Eh) as [N1 N2 N3], K as (K1 & K2). constructor; cbn [hk hlinks]; rewrite ?K1, ?K2; auto.
    + intros [Ac Us]. constructor; cbn [w_heap]; auto. intros a La. specialize (Us a La). eapply use_mono; [| |exact Us]; cbn [w_heap w_models]; auto. apply B2, incl_refl.
  - destruct (grew_cell (w_heap w) pa p nl Ep En) as (HL & HE & HP). set (hp2 := list_set _ pa _) in *. split.
    + constructor; cbn [w_heap w_models].
      * intros j g a E I. apply HL. apply B in E. destruct E as [(-> & ->)|E]; [|left; eauto]. cbn [hlinks] in I. apply in_app_iff in I. destruct I as [I|[<-|[]]]; [left; eauto | auto].
      * intros a c0 E. apply HL. apply HE in E. destruct E as [E|(_ & ->)]; [left; eauto | auto].
      * intros j g E. apply B in E. destruct E as [(-> & ->)|E].
        -- destruct (Nn i h Eh) as [N1 N2 N3], K as (K1 & K2). constructor; cbn [hk hlinks]; rewrite ?K1, ?K2.
           ++ intros a l q I El Eq. apply in_app_iff. left. destruct (HP a l El) as [(-> & ->)|(l0 & E0 & Eq0)]; [congruence|]. apply in_app_iff in I. destruct I as [I|[<-|[]]].
              ** apply (N1 a l0); auto. congruence.
              ** pose proof (nth_error_lt _ _ _ E0). lia.
           ++ intros jt c0 I E0. apply in_app_iff. left. eauto.
           ++ apply incl_appl. exact N3.
        -- destruct (Nn j g E) as [N1 N2 N3]. constructor; auto. intros a l q I El Eq. destruct (HP a l El) as [(-> & ->)|(l0 & E0 & Eq0)].
           ++ pose proof (live_lt _ _ (Hd j g _ E I)). lia.
           ++ apply (N1 a l0); auto. congruence.
    + intros [(rk & Ac) Us]. constructor; cbn [w_heap].
      * exists (fun a => if Nat.eqb a (length (w_heap w)) then 0 else S (rk a)). intros a c0 E. apply HE in E. destruct E as [E|(-> & ->)].
        -- assert (La : a < length (w_heap w)) by (destruct E as (l & E & _); eapply nth_error_lt; eauto).
           pose proof (live_lt _ _ (Cl _ _ E)) as Lc. destruct (Nat.eqb_spec a (length (w_heap w))); [lia|]. destruct (Nat.eqb_spec c0 (length (w_heap w))); [lia|]. specialize (Ac _ _ E). lia.
        -- rewrite Nat.eqb_refl. pose proof (nth_error_lt _ _ _ Ep). destruct (Nat.eqb_spec pa (length (w_heap w))); lia.
      * intros a La. apply HL in La. destruct La as [La| ->].
        -- specialize (Us a La). eapply use_mono; [| |exact Us]; cbn [w_heap w_models].
           ++ apply B2. cbn [hlinks]. apply incl_appl, incl_refl.
           ++ intros x y E. apply HE. auto.
        -- exists i, (mkHM k (hlinks h ++ [length (w_heap w)])), (length (w_heap w)). cbn [w_models hlinks]. split; [now rewrite nth_error_list_set_eq by auto|]. split; [apply in_app_iff; right; now left | constructor].
Qed.

(** ** sweeping *)
Lemma owned_spec ms hp a : owned ms hp a = true <-> (exists i h, nth_error ms i = Some (Some h) /\ In a (hlinks h)) \/ exists b, edge hp b a.
Proof.
  unfold owned. rewrite orb_true_iff, !existsb_exists. split; (intros [H|H]; [left|right]).
  - destruct H as ([h|] & I & X); [|discriminate]. apply existsb_exists in X. destruct X as (y & Iy & E). apply Nat.eqb_eq in E. subst y. apply In_nth_error in I. destruct I as (i & Ei). eauto.
  - destruct H as ([l|] & I & X); [|discriminate]. apply existsb_exists in X. destruct X as (y & Iy & E). apply Nat.eqb_eq in E. subst y. apply In_nth_error in I. destruct I as (i & Ei). exists i, l. auto.
  - destruct H as (i & h & E & I). exists (Some h). split; [eapply nth_error_In; eauto|]. apply existsb_exists. exists a. split; [auto | apply Nat.eqb_refl].
  - destruct H as (b & l & E & I). exists (Some l). split; [eapply nth_error_In; eauto|]. apply existsb_exists. exists a. split; [auto | apply Nat.eqb_refl].
Qed.
Lemma sweep_live ms hp a l : nth_error (sweep_once ms hp) a = Some (Some l) <-> nth_error hp a = Some (Some l) /\ owned ms hp a = true.
Proof.
  rewrite sweep_once_nth. destruct (nth_error hp a) as [c|]; cbn [option_map]; [|split; [discriminate | intros (E & _); discriminate]].
  destruct (owned ms hp a); split; intros H; [split; auto | apply H | discriminate | destruct H; discriminate].
Qed.
Lemma sweep_once_closed ms hp : closed hp -> closed (sweep_once ms hp).
Proof.
  intros Cl a c (l & E & I). apply sweep_live in E. destruct E as (E & O). destruct (Cl a c) as (lc & Ec); [exists l; auto|]. exists lc. apply sweep_live. split; auto.
  apply owned_spec. right. exists a, l. auto.
Qed.
Lemma sweep_once_acyc ms hp : acyc hp -> acyc (sweep_once ms hp).
Proof. intros (rk & H). exists rk. intros a c (l & E & I). apply sweep_live in E. apply H. exists l. tauto. Qed.
Lemma sweep_closed ms n : forall hp, closed hp -> closed (sweep n ms hp).
Proof. induction n as [|n IH]; intros hp H; cbn [sweep]; auto using sweep_once_closed. Qed.
Lemma sweep_acyc ms n : forall hp, acyc hp -> acyc (sweep n ms hp).
Proof. induction n as [|n IH]; intros hp H; cbn [sweep]; auto using sweep_once_acyc. Qed.

Definition count (hp : Heap) : nat := length (filter (fun c => match c with Some _ => true | None => false end) hp).
Lemma map_count {X} (f : X -> option Link) (g : X -> option Link) l : (forall x, In x l -> g x = f x \/ g x = None) ->
  count (map g l) <= count (map f l) /\ (count (map g l) = count (map f l) -> map g l = map f l).
Proof.
  induction l as [|x l IH]; intros H; [split; auto|]. destruct IH as (IH1 & IH2); [intros y I; apply H; now right|]. unfold count in *. cbn [map filter].
  destruct (H x (or_introl eq_refl)) as [E|E]; rewrite E.
  - destruct (f x); cbn [length]; split; try lia; intros Q; f_equal; apply IH2; lia.
  - destruct (f x); cbn [length]; split; try lia. intros Q. f_equal. apply IH2. lia.
Qed.
Lemma enum_snd hp : map snd (enum_heap hp) = hp.
Proof. unfold enum_heap. assert (L : length (seq 0 (length hp)) = length hp) by apply seq_length. revert L. generalize (seq 0 (length hp)). induction hp as [|c hp IH]; intros [|x l] E; try discriminate; cbn [combine map snd]; [reflexivity|]. f_equal. apply IH. now inversion E. Qed.
Lemma sweep_count ms hp : count (sweep_once ms hp) < count hp \/ sweep_once ms hp = hp.
Proof.
  destruct (map_count snd (fun ac => if owned ms hp (fst ac) then snd ac else None) (enum_heap hp)) as (H1 & H2); [intros x _; destruct (owned ms hp (fst x)); auto|].
  unfold sweep_once. rewrite enum_snd in *. destruct (Nat.eq_dec (count (map (fun ac => if owned ms hp (fst ac) then snd ac else None) (enum_heap hp))) (count hp)); [right; auto | left; lia].
Qed.
Lemma sweep_fix ms n hp : sweep_once ms hp = hp -> sweep n ms hp = hp.
Proof. intros E. induction n as [|n IH]; cbn [sweep]; auto. now rewrite E. Qed.
Lemma sweep_done ms n : forall hp, count hp <= n -> sweep_once ms (sweep n ms hp) = sweep n ms hp.
Proof.
  induction n as [|n IH]; intros hp L; cbn [sweep].
  - destruct (sweep_count ms hp) as [H|H]; [lia | auto].
  - destruct (sweep_count ms hp) as [H|H]; [apply IH; lia|]. rewrite H, sweep_fix by auto. auto.
Qed.
Lemma count_le hp : count hp <= length hp.
Proof. unfold count. induction hp as [|c hp IH]; cbn [filter length]; auto. destruct c; cbn [length]; lia. Qed.

Lemma max_rank (rk : addr -> nat) n : exists B, forall a, a < n -> rk a <= B.
Proof. induction n as [|n (B & H)]; [exists 0; lia|]. exists (Nat.max B (rk n)). intros a L. destruct (Nat.eq_dec a n) as [->|]; [lia|]. assert (rk a <= B) by (apply H; lia). lia. Qed.
Lemma reach_trans hp a b c : reach hp a b -> edge hp b c -> reach hp a c.
Proof. intros R (l & E & I). econstructor; eauto. Qed.

Lemma fix_used ms hp : acyc hp -> sweep_once ms hp = hp -> forall a, live hp a -> in_use (mkW hp ms) a.
Proof.
  intros (rk & H) F. destruct (max_rank rk (length hp)) as (B & HB).
  assert (G : forall n a, B - rk a < n -> live hp a -> in_use (mkW hp ms) a).
  { induction n as [|n IH]; intros a L (l & E); [lia|]. pose proof E as E1. rewrite <- F in E1. apply sweep_live in E1. destruct E1 as (_ & O). apply owned_spec in O. destruct O as [(i & h & Ei & I)|(b & Eb)].
    - exists i, h, a. repeat split; auto. constructor.
    - assert (Lb : live hp b) by (destruct Eb as (lb & Elb & _); eexists; eauto). pose proof (H _ _ Eb) as Hr. pose proof (HB b (live_lt _ _ Lb)).
      destruct (IH b) as (i & h & c & Ei & I & R); [lia | auto|]. exists i, h, c. repeat split; auto. eapply reach_trans; eauto. }
  intros a. apply (G (S (B - rk a))). lia.
Qed.

(** deletes *)
Lemma life_delete i w : Life w -> let ms := list_set (w_models w) i None in let w2 := mkW (sweep (length (w_heap w)) ms (w_heap w)) ms in Life w2 /\ (Tidy w -> Tidy w2).
Proof.
  intros [Hd Cl Nn] ms w2.
  assert (B : forall j h, nth_error ms j = Some (Some h) -> nth_error (w_models w) j = Some (Some h)).
  { intros j h E. unfold ms in E. rewrite nth_error_list_set in E. destruct (Nat.eqb_spec i j); auto. destruct (i <? length (w_models w)); discriminate. }
  split; [constructor|intros [Ac Us]; constructor]; unfold w2; cbn [w_heap w_models].
  - intros j h a E I. unfold live. rewrite (sweep_keeps ms _ j h a E I). apply (Hd j h a); auto.
  - now apply sweep_closed.
  - intros j h E. destruct (Nn j h (B j h E)) as [N1 N2 N3]. constructor; auto. intros a l q I El. rewrite (sweep_keeps ms _ j h a E I) in El. eauto.
  - now apply sweep_acyc.
  - intros a La. apply fix_used; auto; [now apply sweep_acyc|]. apply sweep_done, count_le.
Qed.

(** copies *)
Lemma life_copy i w : Life w -> let w2 := mkW (w_heap w) (w_models w ++ [model_at (w_models w) i]) in Life w2 /\ (Tidy w -> Tidy w2).
Proof.
  intros [Hd Cl Nn] w2.
  assert (B : forall j h, nth_error (w_models w ++ [model_at (w_models w) i]) j = Some (Some h) -> exists j', nth_error (w_models w) j' = Some (Some h)).
  { intros j h E. apply nth_snoc in E. destruct E as [(_ & E)|(_ & E)]; [eauto|]. unfold model_at in E. destruct (nth_error (w_models w) i) as [[k|]|] eqn:Ei; try discriminate. injection E as ->. eauto. }
  split; [constructor|intros [Ac Us]; constructor]; unfold w2; cbn [w_heap w_models]; auto.
  - intros j h a E I. apply B in E. destruct E as (j' & E). eauto.
  - intros j h E. apply B in E. destruct E as (j' & E). eauto.
  - intros a La. specialize (Us a La). eapply use_mono; [| |exact Us]; cbn [w_heap w_models]; auto. intros j h E. exists j, h. split; [|apply incl_refl]. rewrite nth_error_app1; auto. eapply nth_error_lt; eauto.
Qed.

(** new models *)
Lemma com_loop_dag l : forall acc m m' ids, Shape m -> (forall k, In k l -> k < length (links m)) -> Dag (links m) ->
  for_each l acc add_com_link m = (m', Ok ids) -> Dag (links m').
Proof.
  induction l as [|k l IH]; intros acc m m' ids S Hl D E; cbn [for_each] in E; [injection E as <- _; exact D|].
  destruct (com_link_out k acc m S (Hl k (or_introl eq_refl))) as (m1 & r & E1 & H). unfold bind at 1 in E. rewrite E1 in E. destruct r as [acc1|e|u|]; try discriminate.
  destruct H as (S1 & L1 & D1). eapply IH; [exact S1 | | auto | exact E]. intros k' I. specialize (Hl k' (or_intror I)). lia.
Qed.
Lemma ctor_dag text m : ctor tinyxml text = Ok m -> (forall top R, tinyxml text = Some top -> describes top R -> cycle_free R) -> Dag (links m).
Proof.
  unfold ctor. destruct text as [|c t]; [discriminate|]. unfold ctor_mi. set (doc := tinyxml _). intros E Hc.
  destruct (parseURDF_dom doc) as [mi|] eqn:Ed; [|discriminate].
  destruct (negb (forallb (fun kj => supported (uj_type (snd kj))) (mi_joints mi))); [discriminate|].
  destruct (parse_inv doc mi Ed) as (top & R & Et & D & G). destruct (parse_graph top R (mi_root mi) D G) as (mi' & sorted & jall & Ep & RA).
  specialize (Hc top R Et D). rewrite Et in Ed. rewrite Ed in Ep. injection Ep as <-. destruct (ctor_members_shape _ _ _ _ _ G RA) as (Sh & Dg). specialize (Dg Hc). clear RA.
  set (m0 := ctor_members mi) in *. clearbody m0. destruct (for_each (seq 0 (length (links m0))) [] add_com_link m0) as [m2 r] eqn:E2.
  destruct r as [acc|x|u|]; [|unfold bind in E; rewrite E2 in E; discriminate ..].
  rewrite (bind_ok _ _ _ _ _ E2), bind_get, bind_put in E. cbn in E. injection E as <-. cbn [links].
  change (Dag (links m2)). eapply com_loop_dag; [exact Sh | | exact Dg | exact E2]. intros k I. apply in_seq in I. lia.
Qed.

Fixpoint index (a : addr) (l : list addr) : nat := match l with [] => 0 | x :: t => if Nat.eqb x a then 0 else S (index a t) end.
Lemma index_nth l : NoDup l -> forall i a, nth_error l i = Some a -> index a l = i.
Proof.
  induction 1 as [|x l Nx N IH]; intros [|i] a E; try discriminate; cbn [nth_error index] in *.
  - injection E as ->. now rewrite Nat.eqb_refl.
  - destruct (Nat.eqb_spec x a) as [->|]; [exfalso; apply Nx; eapply nth_error_In; eauto|]. f_equal. auto.
Qed.

Lemma life_new hp2 h m as2 w : Life w -> Sim true hp2 as2 h m -> frame [] as2 (w_heap w) hp2 ->
  let w2 := mkW hp2 (w_models w ++ [Some h]) in Life w2 /\ (Dag (links m) -> Tidy w -> Tidy w2).
Proof.
  intros [Hd Cl Nn] HS Fr w2. pose proof (s_as _ _ _ _ _ HS) as Ea. subst as2.
  assert (Old : forall a, a < length (w_heap w) -> nth_error hp2 a = nth_error (w_heap w) a) by (intros a L; apply (fr_out _ _ _ _ Fr); auto).
  assert (Lv : forall a, live (w_heap w) a -> live hp2 a) by (intros a L; unfold live; rewrite Old; [exact L | now apply live_lt]).
  assert (New : forall a, In a (hlinks h) -> live hp2 a).
  { intros a I. apply In_nth_error in I. destruct I as (i & E). destruct (Forall2_nth1 _ _ _ _ _ (s_cells _ _ _ _ _ HS) E) as (l & _ & l' & E' & _). exists l'. exact E'. }
  assert (NewE : forall a c, edge hp2 a c -> edge (w_heap w) a c \/ (length (w_heap w) <= a /\ exists i j l, nth_error (hlinks h) i = Some a /\ nth_error (hlinks h) j = Some c /\ nth_error (links m) i = Some l /\ In j (l_children l))).
  { intros a c (l' & E & I). destruct (Nat.lt_ge_cases a (length (w_heap w))) as [L|L]; [left; exists l'; rewrite Old in E; auto|]. right. split; auto.
    assert (Ia : In a (hlinks h)) by (apply (fr_all _ _ _ _ Fr); auto; eapply nth_error_lt; eauto). apply In_nth_error in Ia. destruct Ia as (i & Ei).
    destruct (Forall2_nth1 _ _ _ _ _ (s_cells _ _ _ _ _ HS) Ei) as (l & El & l2 & E2 & C). assert (l2 = l') by congruence. subst l2.
    apply In_nth_error in I. destruct I as (q & Eq). destruct (Forall2_nth1 _ _ _ _ _ (ce_ch _ _ _ _ C eq_refl) Eq) as (j & Ej & P). exists i, j, l. repeat split; auto. eapply nth_error_In; eauto. }
  unfold w2. split; [constructor|intros (rk & Dg) [(rk0 & Ac) Us]; constructor]; cbn [w_heap w_models].
  - intros j k a E I. apply nth_snoc in E. destruct E as [(_ & E)|(_ & E)]; [eauto|]. injection E as ->. auto.
  - intros a c E. apply NewE in E. destruct E as [E|(_ & i & j & l & _ & E & _)]; [eauto|]. apply New. eapply nth_error_In; eauto.
  - intros j k E. apply nth_snoc in E. destruct E as [(_ & E)|(_ & E)].
    + destruct (Nn j k E) as [N1 N2 N3]. constructor; auto. intros a l q I El. rewrite Old in El by (eapply live_lt; eauto). eauto.
    + injection E as ->. constructor.
      * intros a l q I El Eq. apply In_nth_error in I. destruct I as (i & Ei). destruct (Forall2_nth1 _ _ _ _ _ (s_cells _ _ _ _ _ HS) Ei) as (l0 & _ & l' & E' & C).
        assert (l' = l) by congruence. subst l'. pose proof (ce_par _ _ _ _ C) as P. rewrite Eq in P. destruct (l_parent l0) as [q0|]; [|destruct P]. eapply nth_error_In; exact P.
      * intros jt c I Ec. apply In_nth_error in I. destruct I as (i & Ei). destruct (Forall2_nth1 _ _ _ _ _ (me_joints _ _ _ (s_mem _ _ _ _ _ HS)) Ei) as (j0 & _ & _ & P).
        rewrite Ec in P. destruct (j_child j0) as [q0|]; [|destruct P]. eapply nth_error_In; exact P.
      * intros a I. apply In_nth_error in I. destruct I as (i & Ei). destruct (Forall2_nth1 _ _ _ _ _ (me_com _ _ _ (s_mem _ _ _ _ _ HS)) Ei) as (q0 & _ & P). eapply nth_error_In; exact P.
  - exists (fun a => if a <? length (w_heap w) then rk0 a else rk (index a (hlinks h))). intros a c E. apply NewE in E. destruct E as [E|(L & i & j & l & Ei & Ej & El & I)].
    + pose proof (live_lt _ _ (Cl _ _ E)) as Lc. assert (La : a < length (w_heap w)) by (destruct E as (l & E & _); eapply nth_error_lt; eauto).
      apply Nat.ltb_lt in Lc, La. rewrite Lc, La. auto.
    + assert (Lc : length (w_heap w) <= c) by (destruct (fr_new _ _ _ _ Fr c) as [[]|X]; [eapply nth_error_In; eauto | exact X]). apply Nat.ltb_ge in L, Lc. rewrite L, Lc.
      rewrite (index_nth _ (s_nodup _ _ _ _ _ HS) _ _ Ei), (index_nth _ (s_nodup _ _ _ _ _ HS) _ _ Ej). eauto.
  - intros a (l & E). destruct (Nat.lt_ge_cases a (length (w_heap w))) as [L|L].
    + assert (U : in_use w a) by (apply Us; exists l; now rewrite Old in E). eapply use_mono; [| |exact U]; cbn [w_heap w_models].
      * intros j k Ek. exists j, k. split; [|apply incl_refl]. rewrite nth_error_app1; auto. eapply nth_error_lt; eauto.
      * intros x y (lx & Ex & Ix). exists lx. rewrite Old; auto. eapply nth_error_lt; eauto.
    + exists (length (w_models w)), h, a. cbn [w_models]. split; [rewrite nth_error_app2, Nat.sub_diag by lia; reflexivity|]. split; [|constructor].
      apply (fr_all _ _ _ _ Fr); auto. eapply nth_error_lt; eauto.
Qed.

Lemma life_none w : Life w -> Life (mkW (w_heap w) (w_models w ++ [None])) /\ (Tidy w -> Tidy (mkW (w_heap w) (w_models w ++ [None]))).
Proof.
  intros [Hd Cl Nn]. split; [constructor|intros [Ac Us]; constructor]; cbn [w_heap w_models]; auto.
  - intros j k a E I. apply nth_snoc in E. destruct E as [(_ & E)|(_ & E)]; [eauto | discriminate].
  - intros j k E. apply nth_snoc in E. destruct E as [(_ & E)|(_ & E)]; [eauto | discriminate].
  - intros a La. specialize (Us a La). eapply use_mono; [| |exact Us]; cbn [w_heap w_models]; auto. intros j h E. exists j, h. split; [|apply incl_refl]. rewrite nth_error_app1; auto. eapply nth_error_lt; eauto.
Qed.

Definition tree_docs (e : event) : Prop := match e with E_new text => forall top R, tinyxml text = Some top -> describes top R -> cycle_free R | _ => True end.

Lemma life_step e w : Life w -> Life (fst (h_step tinyxml e w)) /\ (tree_docs e -> Tidy w -> Tidy (fst (h_step tinyxml e w))).
Proof.
  intros L. destruct e as [text|i|i|i c]; cbn [h_step].
  - pose proof (ctor_both tinyxml text (w_heap w)) as H. pose proof (ctor_dag text) as Dg. destruct (h_ctor tinyxml text (w_heap w)) as [hp2 r']. destruct (ctor tinyxml text) as [m|x|u|], r' as [h|x'|u'|]; try contradiction; cbn [fst].
    + destruct H as (as2 & HS & Sh & Fr). destruct (life_new hp2 h m as2 w L HS Fr) as (L2 & T2). split; [exact L2|]. intros Td. apply T2. apply Dg; auto.
    + destruct H as (_ & ->). destruct (life_none w L). split; auto.
    + destruct H as (_ & ->). destruct (life_none w L). split; auto.
    + subst hp2. destruct (life_none w L). split; auto.
  - destruct (life_copy i w L). split; auto.
  - destruct (life_delete i w L). split; auto.
  - unfold model_at. destruct (nth_error (w_models w) i) as [[h|]|] eqn:E; try (split; auto; fail).
    destruct (life_call i c w h L E) as (L2 & T2). destruct (h_call c (w_heap w, h)) as [[hp2 h2] r]. cbn [fst snd] in *. split; auto.
Qed.
Lemma life_run es : forall w, Life w -> Life (fst (h_run tinyxml es w)) /\ ((forall e, In e es -> tree_docs e) -> Tidy w -> Tidy (fst (h_run tinyxml es w))).
Proof.
  induction es as [|e es IH]; intros w L; cbn [h_run]; [auto|]. destruct (life_step e w L) as (L2 & T2). destruct (h_step tinyxml e w) as [w' r]. cbn [fst] in *.
  destruct (IH w' L2) as (L3 & T3).
  destruct r as [b|x|u|]; [destruct (h_run tinyxml es w') as [w2 rs]; cbn [fst] in * | destruct (h_run tinyxml es w') as [w2 rs]; cbn [fst] in * | |]; cbn [fst];
    (split; [auto|]); intros Td T; try (apply T2; auto; apply Td; now left).
  - apply T3; [intros e' I; apply Td; now right|]. apply T2; auto. apply Td. now left.
  - apply T3; [intros e' I; apply Td; now right|]. apply T2; auto. apply Td. now left.
Qed.
Lemma life_empty : Life empty_world /\ Tidy empty_world.
Proof.
  split; constructor; cbn [empty_world w_heap w_models].
  - intros [|i]; discriminate.
  - intros [|a] c (l & E & _); discriminate.
  - intros [|i]; discriminate.
  - exists (fun _ => 0). intros [|a] c (l & E & _); discriminate.
  - intros [|a] (l & E); discriminate.
Qed.

End PfHeap4.
