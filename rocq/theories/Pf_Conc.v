(** Lemmas about threads inside get_link_pose. *)
From Coq Require Import List Arith Lia.
From Verif Require Import Base Num Pose DataStructure Urdf Kin Conc Pf_Base Pf_Data Inv Pf_FK Pf_Jac.
Import ListNotations.
Local Open Scope m_scope.

Section C.
Context `{A : Arith}.

Fixpoint steps (n : nat) (m : KM) (p : pc) : res (KM * pc) :=
  match n with
  | O => Ok (m, p)
  | S n' => let? r := step m p in steps n' (fst r) (snd r)
  end.

Lemma steps_add n : forall k m p, steps (n + k) m p = (let? r := steps n m p in steps k (fst r) (snd r)).
Proof. induction n as [|n IH]; intros k m p; cbn [plus steps]; [reflexivity|]. destruct (step m p) as [[m1 p1]| | |]; cbn [rbind fst snd]; auto. Qed.

Lemma steps_one n m p m1 p1 r : step m p = Ok (m1, p1) -> steps n m1 p1 = r -> steps (S n) m p = r.
Proof. intros E1 E2. cbn [steps]. rewrite E1. exact E2. Qed.

Lemma walk_up_stack m c : forall fuel h s s' stk, walk_up fuel (set_scratch s c m) h stk = walk_up fuel (set_scratch s' c m) h stk.
Proof.
  induction fuel as [|fuel IH]; intros h s s' stk; cbn [walk_up]; [reflexivity|]. change (links (set_scratch s c m)) with (links (set_scratch s' c m)).
    destruct (vget (links (set_scratch s' c m)) h) as [l| | |]; cbn [rbind]; auto. destruct (l_parent l) as [p|]; [|reflexivity].
    change (tcache (set_scratch s c m)) with (tcache (set_scratch s' c m)). destruct (get_cache (l_id l) (tcache (set_scratch s' c m))) as [[tf|]| | |]; cbn [rbind]; auto.
    destruct (deref (l_pjoint l)) as [pj| | |]; cbn [rbind]; auto. change (tf_plink_to_hlink (set_scratch s c m) pj) with (tf_plink_to_hlink (set_scratch s' c m) pj).
    destruct (tf_plink_to_hlink (set_scratch s' c m) pj) as [t| | |]; cbn [rbind]; auto. destruct (stack_push (l_id l, t) stk) as [stk1| | |]; cbn [rbind]; auto.
Qed.

(** the way up: alone, a thread does what walk_up does *)
Lemma solo_up m c : forall fuel h stk stk' tf, walk_up fuel (set_scratch stk c m) h stk = Ok (stk', tf) ->
  exists n, steps n (set_scratch stk c m) (P_up h) = Ok (set_scratch stk' c m, P_drain tf).
Proof.
  induction fuel as [|fuel IH]; intros h stk stk' tf E; cbn [walk_up] in E; [discriminate|].
  apply rbind_ok in E. destruct E as (l & El & E). destruct (l_parent l) as [p|] eqn:Ep.
  2:{ inversion E; subst. exists 1. apply (steps_one _ _ _ (set_scratch stk' c m) (P_drain (base_pose (set_scratch stk' c m)))); [|reflexivity].
      cbn [step]. rewrite El. cbn [rbind]. rewrite Ep. reflexivity. }
  apply rbind_ok in E. destruct E as (o & Eo & E). destruct o as [tf0|].
  - inversion E; subst. exists 1. apply (steps_one _ _ _ (set_scratch stk' c m) (P_drain tf)); [|reflexivity].
    cbn [step]. rewrite El. cbn [rbind]. rewrite Ep, Eo. reflexivity.
  - apply rbind_ok in E. destruct E as (pj & Ej & E). apply rbind_ok in E. destruct E as (t & Et & E). apply rbind_ok in E. destruct E as (stk1 & Es & E).
    rewrite (walk_up_stack m c _ _ _ stk1) in E. destruct (IH _ _ _ _ E) as (n & En).
    unfold stack_push in Es. apply rbind_ok in Es. destruct Es as (d & Ed & Es). inversion Es; subst stk1. clear Es.
    exists (S (S (S n))).
    apply (steps_one _ _ _ (set_scratch stk c m) (P_push p (l_id l, t))).
    { cbn [step]. rewrite El. cbn [rbind]. rewrite Ep, Eo. cbn [rbind]. rewrite Ej. cbn [rbind]. rewrite Et. reflexivity. }
    apply (steps_one _ _ _ (set_scratch (mkStack d (stack_idx stk)) c m) (P_inc p)).
    { cbn [step]. change (tstack (set_scratch stk c m)) with stk. rewrite Ed. reflexivity. }
    apply (steps_one _ _ _ (set_scratch (mkStack d (S (stack_idx stk))) c m) (P_up p)); [reflexivity|]. exact En.
Qed.

(** the way down *)
Lemma solo_down m : forall k stk c tf stk' c' tf', unwind k stk c tf = Ok (stk', c', tf') ->
  exists n, steps n (set_scratch stk c m) (P_drain tf) = Ok (set_scratch stk' c' m, P_done tf').
Proof.
  induction k as [|k IH]; intros stk c tf stk' c' tf' E; cbn [unwind] in E; destruct (stack_empty stk) eqn:Em; try discriminate E.
  1, 2: inversion E; subst; exists 1; apply (steps_one _ _ _ (set_scratch stk' c' m) (P_done tf')); [|reflexivity];
        cbn [step]; change (tstack (set_scratch stk' c' m)) with stk'; rewrite Em; reflexivity.
  apply rbind_ok in E. destruct E as (e & Ee & E). apply rbind_ok in E. destruct E as (stk1 & Es & E). apply rbind_ok in E. destruct E as (c1 & Ec & E).
  destruct (IH _ _ _ _ _ _ E) as (n & En).
  unfold stack_top in Ee. unfold stack_pop in Es. destruct (stack_idx stk) as [|i] eqn:Ei; [discriminate|]. inversion Es; subst stk1. clear Es.
  unfold set_cache in Ec. apply rbind_ok in Ec. destruct Ec as (p & Ep & Ec). apply rbind_ok in Ec. destruct Ec as (v & Ev & Ec). inversion Ec; subst c1. clear Ec.
  set (s1 := mkStack (stack_data stk) i) in *. exists (S (S (S (S (S (S n)))))).
  apply (steps_one _ _ _ (set_scratch stk c m) (P_top tf)).
  { cbn [step]. change (tstack (set_scratch stk c m)) with stk. now rewrite Em. }
  apply (steps_one _ _ _ (set_scratch stk c m) (P_pop tf i (fst e))).
  { cbn [step]. change (tstack (set_scratch stk c m)) with stk. unfold stack_top. rewrite Ei, Ee. cbn [rbind]. now rewrite Nat.sub_succ, Nat.sub_0_r. }
  apply (steps_one _ _ _ (set_scratch s1 c m) (P_mul tf i (fst e))).
  { cbn [step]. change (tstack (set_scratch stk c m)) with stk. unfold stack_pop. rewrite Ei. reflexivity. }
  apply (steps_one _ _ _ (set_scratch s1 c m) (P_mark (pose_transform tf (snd e)) (fst e))).
  { cbn [step]. change (stack_data (tstack (set_scratch s1 c m))) with (stack_data stk). rewrite Ee. reflexivity. }
  apply (steps_one _ _ _ (set_scratch s1 (mkCache (cache_size c) (cache_data c) p) m) (P_store (pose_transform tf (snd e)) (fst e))).
  { cbn [step]. change (tcache (set_scratch s1 c m)) with c. rewrite Ep. reflexivity. }
  apply (steps_one _ _ _ (set_scratch s1 (mkCache (cache_size c) v p) m) (P_drain (pose_transform tf (snd e)))).
  { cbn [step]. change (tcache (set_scratch s1 (mkCache (cache_size c) (cache_data c) p) m)) with (mkCache (cache_size c) (cache_data c) p). cbn [cache_data cache_size cache_pred].
    rewrite Ev. reflexivity. }
  exact En.
Qed.

Lemma solo m i m' P : get_link_pose i m = (m', Ok P) -> exists n, steps n m (P_test i) = Ok (m', P_done P).
Proof.
  unfold get_link_pose. rewrite bind_get. intros E. apply bind_inv_ok in E. destruct E as (m1 & o & E1 & E).
  apply lift_inv in E1. destruct E1 as (-> & Eo). destruct o as [tf|].
  - inversion E; subst. exists 1. apply (steps_one _ _ _ m' (P_done P)); [|reflexivity]. cbn [step]. rewrite Eo. reflexivity.
  - unfold get_link_pose_inner in E. destruct (walk_up _ m i _) as [[stk' tf]| | |] eqn:Ew; try discriminate E.
    destruct (unwind _ _ _ _) as [[[stk'' c] tf']| | |] eqn:Eu; try discriminate E. inversion E; subst.
    destruct (solo_down m _ _ _ _ _ _ _ Eu) as (n2 & E2).
    assert (X : exists n, steps n (set_scratch (stack_reset (tstack m)) (tcache m) m) (P_up i) = Ok (set_scratch stk' (tcache m) m, P_drain tf)).
    { eapply solo_up. rewrite <- Ew. transitivity (walk_up (S (length (stack_data (stack_reset (tstack m))))) (set_scratch (tstack m) (tcache m) m) i (stack_reset (tstack m))); [apply walk_up_stack | now rewrite set_scratch_id]. }
    destruct X as (n1 & E1). exists (S (S (n1 + n2))).
    apply (steps_one _ _ _ m (P_reset i)); [cbn [step]; rewrite Eo; reflexivity|].
    apply (steps_one _ _ _ (set_scratch (stack_reset (tstack m)) (tcache m) m) (P_up i)); [reflexivity|].
    rewrite steps_add, E1. cbn [rbind fst snd]. exact E2.
Qed.

(** ** what a query leaves in the cache *)
Definition is_cached (c : SizedCache Pose) (i : nat) : Prop := exists P, get_cache i c = Ok (Some P).

Lemma unwind_caches : forall k stk c tf stk' c' tf', unwind k stk c tf = Ok (stk', c', tf') -> cache_wf c -> stack_wf stk ->
  (forall i, is_cached c i -> is_cached c' i) /\ (forall e, In e (stack_list stk) -> is_cached c' (fst e)).
Proof.
  induction k as [|k IH]; intros stk c tf stk' c' tf' E CW SW; cbn [unwind] in E; destruct (stack_empty stk) eqn:Em; try discriminate E.
  1, 2: inversion E; subst; split; auto; apply (stack_empty_list _ SW) in Em; rewrite Em; intros e [].
  apply rbind_ok in E. destruct E as (e & Ee & E). apply rbind_ok in E. destruct E as (stk1 & Es & E). apply rbind_ok in E. destruct E as (c1 & Ec & E).
  destruct (set_cache_wf _ _ _ _ CW Ec) as (CW1 & _).
  assert (L : exists l, stack_list stk = l ++ [e] /\ stack_list stk1 = l /\ stack_wf stk1).
  { destruct (exists_last (l := stack_list stk)) as (l & e' & El).
    - intros H. apply (stack_empty_list _ SW) in H. congruence.
    - destruct (stack_top_pop _ _ _ SW El) as (E1 & s' & E2 & W' & L' & _). rewrite Ee in E1. rewrite Es in E2. inversion E1; inversion E2; subst. eauto. }
  destruct L as (l & L1 & L2 & W1). destruct (IH _ _ _ _ _ _ E CW1 W1) as (H1 & H2).
  assert (X : is_cached c1 (fst e)). { eexists. rewrite (get_set_cache _ _ _ _ _ CW Ec), Nat.eqb_refl. reflexivity. }
  split.
  - intros i (P & Hi). apply H1. destruct (Nat.eq_dec (fst e) i) as [<-|N]; [exact X|].
    exists P. rewrite (get_set_cache _ _ _ _ _ CW Ec). apply Nat.eqb_neq in N. now rewrite N.
  - intros e' I. rewrite L1 in I. apply in_app_or in I. destruct I as [I|[<-|[]]]; [apply H2; now rewrite L2 | now apply H1].
Qed.

Lemma walk_up_list m : forall fuel h stk stk' tf, walk_up fuel m h stk = Ok (stk', tf) -> stack_wf stk ->
  stack_wf stk' /\ exists l, stack_list stk' = stack_list stk ++ l /\
    (forall x, nth_error (links m) h = Some x -> l_parent x <> None -> get_cache (l_id x) (tcache m) = Ok None -> exists t l', l = (l_id x, t) :: l').
Proof.
  induction fuel as [|fuel IH]; intros h stk stk' tf E SW; cbn [walk_up] in E; [discriminate|].
  apply rbind_ok in E. destruct E as (l & El & E). apply vget_ok in El. destruct (l_parent l) as [p|] eqn:Ep.
  2:{ inversion E; subst. split; auto. exists []. rewrite app_nil_r. split; auto. intros x Ex. rewrite El in Ex. inversion Ex; subst. congruence. }
  apply rbind_ok in E. destruct E as (o & Eo & E). destruct o as [tf0|].
  - inversion E; subst. split; auto. exists []. rewrite app_nil_r. split; auto. intros x Ex. rewrite El in Ex. inversion Ex; subst. congruence.
  - apply rbind_ok in E. destruct E as (pj & Ej & E). apply rbind_ok in E. destruct E as (t & Et & E). apply rbind_ok in E. destruct E as (stk1 & Es & E).
    destruct (stack_push_ok _ _ _ Es SW) as (W1 & L1 & _). destruct (IH _ _ _ _ E W1) as (W' & l' & L' & _). split; auto.
    exists ((l_id l, t) :: l'). split; [rewrite L', L1, <- app_assoc; reflexivity|]. intros x Ex _ _. rewrite El in Ex. inversion Ex; subst. eauto.
Qed.

Lemma query_caches m i m' P : WF m -> get_link_pose i m = (m', Ok P) ->
  (forall k, is_cached (tcache m) k -> is_cached (tcache m') k) /\
  ((exists l, nth_error (links m) i = Some l /\ l_parent l <> None) -> is_cached (tcache m') i).
Proof.
  intros W E. unfold get_link_pose in E. rewrite bind_get in E. apply bind_inv_ok in E. destruct E as (m1 & o & E1 & E).
  apply lift_inv in E1. destruct E1 as (-> & Eo). destruct o as [tf|].
  - inversion E; subst. split; auto. intros _. eexists; eauto.
  - unfold get_link_pose_inner in E. set (stk := stack_reset (tstack m)) in *. destruct (walk_up _ m i stk) as [[stk' tf]| | |] eqn:Ew; try discriminate E.
    destruct (unwind _ _ _ _) as [[[stk'' c] tf']| | |] eqn:Eu; try discriminate E. inversion E; subst. cbn [tcache set_scratch].
    destruct (walk_up_list m _ _ _ _ _ Ew) as (W' & l & Ll & Hl); [unfold stack_wf; simpl; lia|].
    destruct (unwind_caches _ _ _ _ _ _ _ Eu (proj1 (wf_cache m W)) W') as (U1 & U2). split; [exact U1|].
    intros (x & Ex & Px). pose proof (wf_ids m W i x Ex) as Ei. rewrite <- Ei in Eo. destruct (Hl x Ex Px Eo) as (t & l' & ->).
    rewrite <- Ei. apply (U2 (l_id x, t)). rewrite Ll. apply in_or_app. right. left. reflexivity.
Qed.

(** ** threads *)
Lemma schedule_app s : forall s' m ts, schedule (s ++ s') m ts = (let? r := schedule s m ts in schedule s' (fst r) (snd r)).
Proof.
  induction s as [|k s IH]; intros s' m ts; cbn [schedule app]; [reflexivity|]. destruct (nth_error ts k) as [t|]; [|apply IH].
  destruct (step_thread m t) as [r| | |]; cbn [rbind]; auto.
Qed.

Lemma list_set_twice {B} (l : list B) k x y : list_set (list_set l k x) k y = list_set l k y.
Proof. revert k. induction l as [|a l IH]; intros [|k]; cbn [list_set]; auto. now rewrite IH. Qed.
Lemma list_set_same {B} (l : list B) k x : nth_error l k = Some x -> list_set l k x = l.
Proof. revert k. induction l as [|a l IH]; intros [|k]; cbn [list_set nth_error]; intros E; try discriminate; [congruence|]. now rewrite IH. Qed.

(** a thread running alone inside a call *)
Lemma schedule_steps q ans k n : forall m p ts m' P, nth_error ts k = Some (mkT (Some p) q ans) -> steps n m p = Ok (m', P_done P) ->
  exists n', schedule (repeat k n') m ts = Ok (m', list_set ts k (mkT None q (ans ++ [P]))).
Proof.
  induction n as [|n IH]; intros m p ts m' P Ek E.
  - inversion E; subst. exists 1. cbn [repeat schedule]. rewrite Ek. reflexivity.
  - cbn [steps] in E. apply rbind_ok in E. destruct E as ([m1 p1] & E1 & E). cbn [fst snd] in E.
    destruct p as [ | | | | | | | | | | |tf] eqn:Ep.
    12:{ cbn [step] in E1. inversion E1; subst. exact (IH _ _ _ _ _ Ek E). }
    all: assert (Et : step_thread m (mkT (Some p) q ans) = Ok (m1, mkT (Some p1) q ans))
           by (rewrite Ep; unfold step_thread; cbn [t_pc t_todo t_answers]; rewrite E1; reflexivity);
         destruct (IH m1 p1 (list_set ts k (mkT (Some p1) q ans)) m' P) as (n' & E');
         [apply nth_error_list_set_eq; eapply nth_error_lt; eauto | exact E |];
         exists (S n'); cbn [repeat schedule]; rewrite Ek, <- Ep, Et; cbn [rbind fst snd]; rewrite E'; now rewrite list_set_twice.
Qed.

Lemma solo_call m i m' P k q ans ts : get_link_pose i m = (m', Ok P) -> nth_error ts k = Some (mkT None (i :: q) ans) ->
  exists n, schedule (repeat k n) m ts = Ok (m', list_set ts k (mkT None q (ans ++ [P]))).
Proof.
  intros E Ek. destruct (solo _ _ _ _ E) as (n & En).
  destruct (schedule_steps q ans k n m (P_test i) (list_set ts k (mkT (Some (P_test i)) q ans)) m' P) as (n' & E'); auto.
  - apply nth_error_list_set_eq. eapply nth_error_lt; eauto.
  - exists (S n'). cbn [repeat schedule]. rewrite Ek. unfold step_thread. cbn [t_pc t_todo t_answers rbind fst snd]. rewrite E'. now rewrite list_set_twice.
Qed.

(** ** threads that only hit the cache *)
Section Cached.
Variable m : KM.
Variable f : nat -> Pose.

Definition current (t : thread) : list nat := match t_pc t with Some (P_test i) => [i] | _ => [] end.
Definition pending (t : thread) : list Pose := match t_pc t with Some (P_done P) => [P] | _ => [] end.
(** [t] is on its way through the queries [q], and will only hit the cache *)
Definition reading (q : list nat) (t : thread) : Prop :=
  (t_pc t = None \/ (exists i, t_pc t = Some (P_test i)) \/ exists P, t_pc t = Some (P_done P)) /\
  (forall i, In i (current t ++ t_todo t) -> get_cache i (tcache m) = Ok (Some (f i))) /\
  t_answers t ++ pending t ++ map f (current t ++ t_todo t) = map f q.

Lemma reading_caller q : (forall i, In i q -> get_cache i (tcache m) = Ok (Some (f i))) -> reading q (caller q).
Proof. intros H. split; [left; reflexivity|]. split; auto. Qed.

(** steps left *)
Definition left (t : thread) : nat := 3 * length (t_todo t) + 2 * length (current t) + length (pending t).

Lemma reading_step q t : reading q t -> exists t', step_thread m t = Ok (m, t') /\ reading q t' /\ left t' = left t - 1.
Proof.
  intros (Hp & Hc & Ha). destruct t as [o todo ans]. cbn [t_pc t_todo t_answers] in *. destruct Hp as [->|[(i & ->)|(P & ->)]].
  - destruct todo as [|i todo]; cbn [t_pc t_todo t_answers].
    + eexists. split; [reflexivity|]. split; [split; [left; reflexivity|split; auto]|]. reflexivity.
    + eexists. split; [reflexivity|]. split; [|cbn; lia]. split; [right; left; eexists; reflexivity|]. split; auto.
  - eexists. unfold step_thread. cbn [t_pc t_todo t_answers step]. unfold current, pending in Hc, Ha. cbn [t_pc app] in Hc, Ha. rewrite (Hc i) by (left; reflexivity). split; [reflexivity|].
    split; [|cbn; lia]. split; [right; right; eexists; reflexivity|]. split; [intros k Ik; apply Hc; right; exact Ik|]. exact Ha.
  - eexists. split; [reflexivity|]. split; [|cbn; lia]. split; [left; reflexivity|]. split; [exact Hc|].
    unfold current, pending in *. cbn [t_pc t_todo t_answers app] in *. now rewrite <- app_assoc.
Qed.

Definition turns_of (k : nat) (s : list nat) : nat := count_occ Nat.eq_dec s k.

Lemma reading_schedule s : forall qs ts, Forall2 reading qs ts ->
  exists ts', schedule s m ts = Ok (m, ts') /\ Forall2 reading qs ts' /\
    (forall k t t', nth_error ts k = Some t -> nth_error ts' k = Some t' -> left t' = left t - turns_of k s).
Proof.
  induction s as [|k s IH]; intros qs ts F.
  - exists ts. split; [reflexivity|]. split; auto. intros k t t' E E'. rewrite E in E'. inversion E'; subst. cbn. lia.
  - cbn [schedule]. destruct (nth_error ts k) as [t|] eqn:Ek.
    + assert (X : exists q, nth_error qs k = Some q /\ reading q t).
      { clear IH. revert ts F k Ek. induction qs as [|q0 qs IHq]; intros ts F k Ek; inversion F; subst; destruct k; try discriminate; cbn in *; [inversion Ek; subst; eauto | eauto]. }
      destruct X as (q & Eq & Rt). destruct (reading_step q t Rt) as (t1 & E1 & R1 & L1). rewrite E1. cbn [rbind fst snd].
      destruct (IH qs (list_set ts k t1)) as (ts' & E' & F' & L').
      { clear - F Eq R1. revert qs F k Eq. induction ts as [|t0 ts IHt]; intros qs F k Eq; inversion F; subst; destruct k; cbn in *; try discriminate; constructor; auto; congruence. }
      exists ts'. split; [exact E'|]. split; auto. intros j u u' Eu Eu'. unfold turns_of. cbn [count_occ]. destruct (Nat.eq_dec k j) as [<-|N].
      * rewrite Ek in Eu. inversion Eu; subst u. assert (Y : nth_error (list_set ts k t1) k = Some t1) by (apply nth_error_list_set_eq; eapply nth_error_lt; eauto).
        rewrite (L' k t1 u' Y Eu'), L1. unfold turns_of. lia.
      * assert (Y : nth_error (list_set ts k t1) j = Some u) by (rewrite nth_error_list_set_ne; auto). rewrite (L' j u u' Y Eu'). reflexivity.
    + destruct (IH qs ts F) as (ts' & E' & F' & L'). exists ts'. split; [exact E'|]. split; auto. intros j u u' Eu Eu'. unfold turns_of. cbn [count_occ].
      destruct (Nat.eq_dec k j) as [<-|N]; [congruence|]. exact (L' j u u' Eu Eu').
Qed.

Lemma left_finished q t : reading q t -> left t = 0 -> finished t /\ t_answers t = map f q.
Proof.
  intros (Hp & Hc & Ha) L. destruct t as [o todo ans]. unfold left, current, pending in *. cbn [t_pc t_todo t_answers] in *.
  destruct Hp as [->|[(i & ->)|(P & ->)]]; cbn [length] in L; try lia. destruct todo; [|cbn in L; lia]. split; [split; reflexivity|]. cbn in Ha. now rewrite app_nil_r in Ha.
Qed.

Lemma reading_prefix q t : reading q t -> exists rest, map f q = t_answers t ++ rest.
Proof. intros (_ & _ & H). rewrite <- H. eauto. Qed.

End Cached.
End C.
