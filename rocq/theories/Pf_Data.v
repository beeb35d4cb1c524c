(** Proofs about include/data_structure.hpp. *)
From Coq Require Import String List Arith Lia Bool.
From Verif Require Import Base DataStructure Spec_Data Pf_Base.
Import ListNotations.

(** ** Cache *)
Section C.
Context {D : Type} (dflt : D).
Implicit Types (c : SizedCache D) (h : list (cache_op D)).

Definition cache_wf c := length (cache_data c) = cache_size c /\ length (cache_pred c) = cache_size c.

Definition cache_repr (n : nat) h c :=
  cache_wf c /\ cache_size c = slots n h /\
  forall id, id < slots n h -> get_cache id c = Ok (last_stored id h).

Lemma cache_new_wf n : cache_wf (cache_new dflt n).
Proof. split; simpl; apply repeat_length. Qed.
Lemma cache_clear_wf c : cache_wf c -> cache_wf (cache_clear c).
Proof. intros [H1 H2]; split; simpl; auto. apply repeat_length. Qed.
Lemma cache_extend_wf c : cache_wf c -> cache_wf (cache_extend dflt c).
Proof. intros [H1 H2]; split; simpl; rewrite ?app_length, ?repeat_length; simpl; lia. Qed.
Lemma cache_extend_size c : cache_size (cache_extend dflt c) = S (cache_size c).
Proof. reflexivity. Qed.

Lemma get_cache_blank c id : cache_wf c -> id < cache_size c -> get_cache id (cache_clear c) = Ok None.
Proof.
  intros [H1 H2] L. unfold get_cache, vget. simpl. rewrite nth_error_repeat'.
  apply Nat.ltb_lt in L. rewrite L. reflexivity.
Qed.

Lemma set_cache_lt c id d : cache_wf c -> id < cache_size c ->
  set_cache id d c = Ok (mkCache (cache_size c) (list_set (cache_data c) id d) (list_set (cache_pred c) id true)).
Proof.
  intros [H1 H2] L. unfold set_cache. rewrite !vset_lt by lia. reflexivity.
Qed.

Lemma set_cache_wf c id d c' : cache_wf c -> set_cache id d c = Ok c' -> cache_wf c' /\ cache_size c' = cache_size c.
Proof.
  intros W E. unfold set_cache in E. apply rbind_ok in E. destruct E as (p & E1 & E).
  apply rbind_ok in E. destruct E as (v & E2 & E). inversion E; subst; simpl.
  apply vset_ok in E1; apply vset_ok in E2. destruct E1 as [? ->], E2 as [? ->]. destruct W.
  split; [split; simpl; now rewrite list_set_length|reflexivity].
Qed.

Lemma get_set_cache c id d c' k : cache_wf c -> set_cache id d c = Ok c' ->
  get_cache k c' = if Nat.eqb id k then Ok (Some d) else get_cache k c.
Proof.
  intros W E. unfold set_cache in E. apply rbind_ok in E. destruct E as (p & E1 & E).
  apply rbind_ok in E. destruct E as (v & E2 & E). inversion E; subst; simpl.
  apply vset_ok in E1; apply vset_ok in E2. destruct E1 as [L1 ->], E2 as [L2 ->].
  unfold get_cache, vget. simpl. rewrite !nth_error_list_set.
  destruct (Nat.eqb_spec id k); auto. apply Nat.ltb_lt in L1; apply Nat.ltb_lt in L2. rewrite L1, L2. reflexivity.
Qed.

Lemma get_cache_range c id : cache_wf c -> cache_size c <= id -> get_cache id c = UB OutOfBounds.
Proof. intros [H1 H2] L. unfold get_cache. rewrite vget_ub by lia. reflexivity. Qed.

Lemma get_cache_lt c id : cache_wf c -> id < cache_size c -> exists o, get_cache id c = Ok o.
Proof.
  intros [H1 H2] L. unfold get_cache. destruct (vget_lt (cache_pred c) id) as (b & E & _); [lia|].
  rewrite E. simpl. destruct b; eauto. destruct (vget_lt (cache_data c) id) as (d & E' & _); [lia|].
  rewrite E'. simpl. eauto.
Qed.

Lemma get_cache_cleared c id x : cache_wf c -> get_cache id (cache_clear c) <> Ok (Some x).
Proof.
  intros W. destruct (Nat.lt_ge_cases id (cache_size c)).
  - rewrite get_cache_blank by auto. discriminate.
  - rewrite get_cache_range; [discriminate| |simpl; lia]. now apply cache_clear_wf.
Qed.

Lemma cache_run_repr n ops : stores_in_range n (rev ops) ->
  exists c, cache_run dflt n ops = Ok c /\ cache_repr n (rev ops) c.
Proof.
  unfold cache_run. induction ops as [|o ops IH] using rev_ind; intros R.
  - exists (cache_new dflt n). split; auto. split; [apply cache_new_wf|]. split; auto.
    intros id L. simpl in *. unfold get_cache, vget, cache_new. simpl. rewrite nth_error_repeat'.
    apply Nat.ltb_lt in L. now rewrite L.
  - rewrite rev_app_distr in *. simpl in R |- *.
    assert (R' : stores_in_range n (rev ops)) by (destruct o; simpl in R; tauto).
    destruct (IH R') as (c & E & W & Sz & G). rewrite rfor_app, E. simpl.
    destruct o as [i d| |]; simpl.
    + destruct R as [Li _]. rewrite set_cache_lt by (auto; lia). simpl. eexists; split; [reflexivity|].
      pose proof (set_cache_lt c i d W ltac:(lia)) as E'. pose proof (set_cache_wf _ _ _ _ W E') as [W' S'].
      split; [exact W'|]. split; [simpl in *; lia|]. intros id L. simpl in L.
      rewrite (get_set_cache _ _ _ _ id W E'). simpl. destruct (Nat.eqb i id); auto.
    + eexists; split; [reflexivity|]. split; [now apply cache_clear_wf|]. split; [simpl; auto|].
      intros id L. apply get_cache_blank; auto. simpl in L; lia.
    + eexists; split; [reflexivity|]. split; [now apply cache_extend_wf|]. split; [simpl; lia|].
      intros id L. unfold cache_extend, get_cache, vget. simpl. simpl in L.
      change (false :: repeat false (cache_size c)) with (repeat false (S (cache_size c))).
      rewrite nth_error_repeat'.
      destruct (Nat.ltb_spec id (Datatypes.S (cache_size c))); [reflexivity|lia].
Qed.

Lemma cache_run_out_of_range n ops : ~ stores_in_range n (rev ops) -> cache_run dflt n ops = UB OutOfBounds.
Proof.
  unfold cache_run. induction ops as [|o ops IH] using rev_ind; intros R; [simpl in R; tauto|].
  rewrite rev_app_distr in R. simpl in R. rewrite rfor_app.
  assert (Hd : stores_in_range n (rev ops) \/ ~ stores_in_range n (rev ops)).
  { clear. induction (rev ops) as [|o t IHt]; simpl; [tauto|]. destruct o; auto.
    destruct (Nat.lt_ge_cases id (slots n t)); [|right; intros [? _]; lia]. tauto. }
  destruct Hd as [Hd|Hd].
  - destruct (cache_run_repr n ops Hd) as (c & E & W & Sz & _). unfold cache_run in E. rewrite E. simpl.
    destruct o; simpl; try (exfalso; simpl in R; tauto). simpl in R.
    unfold set_cache. rewrite vset_ub; [reflexivity|]. destruct W. destruct (Nat.lt_ge_cases id (slots n (rev ops))); [exfalso; tauto|lia].
  - now rewrite IH.
Qed.

Lemma cache_as_map n ops c id :
  cache_run dflt n ops = Ok c ->
  get_cache id c = if Nat.ltb id (slots n (rev ops)) then Ok (last_stored id (rev ops)) else UB OutOfBounds.
Proof.
  intros E.
  assert (Hd : stores_in_range n (rev ops) \/ ~ stores_in_range n (rev ops)).
  { clear. induction (rev ops) as [|o t IHt]; simpl; [tauto|]. destruct o; auto.
    destruct (Nat.lt_ge_cases id (slots n t)); [|right; intros [? _]; lia]. tauto. }
  destruct Hd as [Hd|Hd].
  - destruct (cache_run_repr n ops Hd) as (c' & E' & W & Sz & G). rewrite E in E'. inversion E'; subst c'.
    destruct (Nat.ltb_spec id (slots n (rev ops))); [auto|]. apply get_cache_range; auto; lia.
  - rewrite (cache_run_out_of_range _ _ Hd) in E. discriminate.
Qed.

Lemma cache_run_ok_iff n ops :
  (exists c, cache_run dflt n ops = Ok c) <-> stores_in_range n (rev ops).
Proof.
  split.
  - intros (c & E).
    assert (Hd : stores_in_range n (rev ops) \/ ~ stores_in_range n (rev ops)).
    { clear. induction (rev ops) as [|o t IHt]; simpl; [tauto|]. destruct o; auto.
      destruct (Nat.lt_ge_cases id (slots n t)); [|right; intros [? _]; lia]. tauto. }
    destruct Hd as [Hd|Hd]; auto. rewrite (cache_run_out_of_range _ _ Hd) in E. discriminate.
  - intros R. destruct (cache_run_repr n ops R) as (c & E & _). eauto.
Qed.

End C.

(** ** Stack *)
Section S.
Context {E : Type} (dflt : E).
Implicit Types (s : SizedStack E).

(** the elements on the stack, oldest first *)
Definition stack_list s : list E := firstn (stack_idx s) (stack_data s).
Definition stack_wf s := stack_idx s <= length (stack_data s).

Lemma firstn_list_set (l : list E) i e : i < length l -> firstn (S i) (list_set l i e) = firstn i l ++ [e].
Proof.
  revert i; induction l as [|x l IH]; intros i L; simpl in L; [lia|]. destruct i; simpl; auto.
  f_equal. apply IH. lia.
Qed.

Lemma firstn_S_nth (l : list E) i e : nth_error l i = Some e -> firstn (S i) l = firstn i l ++ [e].
Proof.
  revert i; induction l as [|x l IH]; intros [|i]; simpl; intros H; try discriminate.
  - now inversion H.
  - f_equal. now apply IH.
Qed.

Lemma stack_push_ok s e s' : stack_push e s = Ok s' ->
  stack_wf s -> stack_wf s' /\ stack_list s' = stack_list s ++ [e] /\ length (stack_data s') = length (stack_data s)
                /\ stack_idx s < length (stack_data s) /\ stack_idx s' = S (stack_idx s).
Proof.
  unfold stack_push, stack_wf, stack_list. intros H W. apply rbind_ok in H. destruct H as (d & H1 & H2).
  apply vset_ok in H1. destruct H1 as [L ->]. inversion H2; subst; simpl. rewrite list_set_length.
  split; [lia|]. split; [|auto]. now apply firstn_list_set.
Qed.

Lemma stack_push_total s e : stack_idx s < length (stack_data s) -> exists s', stack_push e s = Ok s'.
Proof. intros L. unfold stack_push. rewrite vset_lt by auto. simpl. eauto. Qed.

Lemma stack_push_full s e : length (stack_data s) <= stack_idx s -> stack_push e s = UB OutOfBounds.
Proof. intros L. unfold stack_push. rewrite vset_ub by auto. reflexivity. Qed.

Lemma stack_top_pop s l e : stack_wf s -> stack_list s = l ++ [e] ->
  stack_top s = Ok e /\ exists s', stack_pop s = Ok s' /\ stack_wf s' /\ stack_list s' = l
     /\ length (stack_data s') = length (stack_data s) /\ stack_idx s = S (stack_idx s').
Proof.
  unfold stack_wf, stack_list, stack_top, stack_pop. intros W H.
  destruct (stack_idx s) as [|i] eqn:Ei.
  - simpl in H. destruct l; discriminate.
  - destruct (vget_lt (stack_data s) i ltac:(lia)) as (a & E1 & E2).
    rewrite (firstn_S_nth _ _ _ E2) in H. apply app_inj_tail in H. destruct H as [H1 H2]; subst.
    split; auto. eexists; split; [reflexivity|]. simpl. split; [lia|]. auto.
Qed.

Lemma stack_empty_list s : stack_wf s -> (stack_empty s = true <-> stack_list s = []).
Proof.
  unfold stack_wf, stack_empty, stack_list. intros W. rewrite Nat.eqb_eq. split.
  - now intros ->.
  - intros H. destruct (stack_idx s); auto. destruct (stack_data s); simpl in *; [lia|discriminate].
Qed.

Lemma stack_list_length s : stack_wf s -> length (stack_list s) = stack_idx s.
Proof. intros W. unfold stack_list. rewrite firstn_length. unfold stack_wf in W. lia. Qed.

Definition stack_repr cap (l : list E) s :=
  stack_wf s /\ length (stack_data s) = cap /\ stack_list s = rev l.

Lemma stack_new_repr n : stack_repr n [] (stack_new dflt n).
Proof. split; [unfold stack_wf; simpl; lia|]. split; [apply repeat_length|reflexivity]. Qed.

Lemma stack_step_repr cap l s o : stack_repr cap l s ->
  match lifo_step cap o l with
  | Some l' => exists s', stack_step o s = Ok s' /\ stack_repr cap l' s'
  | None => exists u, stack_step o s = UB u
  end.
Proof.
  intros (W & C & L). pose proof (stack_list_length s W) as Hl. rewrite L, rev_length in Hl.
  destruct o as [e| |]; simpl.
  - destruct (Nat.ltb_spec (length l) cap).
    + destruct (stack_push_total s e ltac:(lia)) as (s' & P). exists s'; split; auto.
      destruct (stack_push_ok s e s' P W) as (W' & L' & C' & _). split; auto. split; [lia|].
      simpl. now rewrite L', L.
    + exists OutOfBounds. apply stack_push_full. lia.
  - destruct l as [|e l]; simpl in *.
    + exists StackUnderflow. unfold stack_pop. now rewrite <- Hl.
    + destruct (stack_top_pop s (rev l) e W L) as (_ & s' & P & W' & L' & C' & _).
      exists s'; split; auto. split; auto. split; [lia|auto].
  - eexists; split; [reflexivity|]. split; [unfold stack_wf; simpl; lia|]. auto.
Qed.

Lemma stack_run_gen cap ops : forall l s, stack_repr cap l s ->
  match lifo_run cap ops l with
  | Some l' => exists s', rfor ops s stack_step = Ok s' /\ stack_repr cap l' s'
  | None => exists u, rfor ops s stack_step = UB u
  end.
Proof.
  induction ops as [|o ops IH]; intros l s R; simpl.
  - eauto.
  - pose proof (stack_step_repr cap l s o R) as H. destruct (lifo_step cap o l) as [l'|].
    + destruct H as (s' & P & R'). rewrite P. simpl. apply IH; auto.
    + destruct H as (u & P). rewrite P. simpl. eauto.
Qed.

Lemma stack_as_lifo n ops :
  match lifo_run n ops [] with
  | Some l => exists s, stack_run dflt n ops = Ok s /\ stack_size s = length l /\
                (stack_empty s = true <-> l = []) /\
                (forall e t, l = e :: t -> stack_top s = Ok e)
  | None => exists u, stack_run dflt n ops = UB u
  end.
Proof.
  pose proof (stack_run_gen n ops [] _ (stack_new_repr n)) as H. unfold stack_run.
  destruct (lifo_run n ops []) as [l|]; auto.
  destruct H as (s & P & W & C & L). exists s; split; auto.
  pose proof (stack_list_length s W) as Hl. rewrite L, rev_length in Hl.
  split; [unfold stack_size; auto|]. split.
  - rewrite stack_empty_list by auto. rewrite L. split; intros H.
    + destruct l; auto. simpl in H. destruct (rev l); discriminate.
    + now subst.
  - intros e t ->. simpl in L. now apply (stack_top_pop s (rev t) e W L).
Qed.
End S.
