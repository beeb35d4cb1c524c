(** Adding links and constructing models in a shared heap. *)
From Coq Require Import String Ascii List Arith Bool Lia.
From Verif Require Import Base Num Pose DataStructure Urdf Kin Heap Spec_Robot Spec_Load Spec_Graph Spec_Heap Pf_Base Pf_Data Inv Pf_Urdf Pf_Ctor Pf_Add Pf_Load Pf_Loop Pf_Dag Pf_Heap.
Import ListNotations.
Local Open Scope m_scope.

Section PfHeap2.
Context `{A : Arith}.

Lemma Forall2_by_nth {X Y} (R : X -> Y -> Prop) : forall l l', length l = length l' ->
  (forall i x y, nth_error l i = Some x -> nth_error l' i = Some y -> R x y) -> Forall2 R l l'.
Proof.
  induction l as [|x l IH]; intros [|y l'] E H; try discriminate; constructor.
  - now apply (H 0). - apply IH; [now inversion E|]. intros i. apply (H (S i)).
Qed.
Lemma Forall2_weaken {X Y} (R R' : X -> Y -> Prop) l l' : (forall x y, R x y -> R' x y) -> Forall2 R l l' -> Forall2 R' l l'.
Proof. intros H. induction 1; constructor; auto. Qed.
Lemma Forall2_rev' {X Y} (R : X -> Y -> Prop) l l' : Forall2 R l l' -> Forall2 R (rev l) (rev l').
Proof. induction 1; cbn [rev]; [constructor|]. apply Forall2_app; auto. Qed.

Lemma NoDup_snoc1 {X} (l : list X) a : NoDup l -> ~ In a l -> NoDup (l ++ [a]).
Proof.
  intros N Na. induction N as [|x l Nx N IH]; cbn [app]; [repeat constructor; auto|]. constructor.
  - rewrite in_app_iff. intros [I|[->|[]]]; [auto | apply Na; now left].
  - apply IH. intros I. apply Na. now right.
Qed.
(** ** the traversal *)
Section Rp.
Variables (hp : Heap) (as_ : list addr) (h : HM) (m : KM).
Hypothesis HS : Sim true hp as_ h m.

Lemma step_both k s' s t : Forall2 (ptr as_) s' s ->
  match h_rp_step hp k (s', t), rp_step (links m) k (s, t) with
  | inl x', inl x => snd x' = snd x /\ Forall2 (ptr as_) (fst x') (fst x)
  | inr r', inr r => r' = r
  | _, _ => False
  end.
Proof.
  intros F. unfold h_rp_step, rp_step. cbn [fst snd]. destruct F as [|a i s' s P F]; [reflexivity|].
  destruct (s_obj _ _ _ _ _ _ _ HS P) as (l' & l & E' & E & C). rewrite E'. apply vget_ok in E. rewrite E, (ce_id _ _ _ _ C).
  destruct (table_set (l_id l) k t) as [t1|x|u|]; auto. cbn [fst snd]. split; auto. apply Forall2_app; auto. apply Forall2_rev', (ce_ch _ _ _ _ C eq_refl).
Qed.
Lemma turns_both k n : forall s' s t, Forall2 (ptr as_) s' s ->
  match turns n (h_rp_step hp k) (s', t), turns n (rp_step (links m) k) (s, t) with
  | inl _, inl _ => True
  | inr r', inr r => r' = r
  | _, _ => False
  end.
Proof.
  induction n as [|n IH]; intros s' s t F; cbn [turns]; auto. pose proof (step_both k s' s t F) as H.
  destruct (h_rp_step hp k (s', t)) as [[x' t']|r'], (rp_step (links m) k (s, t)) as [[x t1]|r]; auto; try easy. cbn [fst snd] in H. destruct H as [-> H]. now apply IH.
Qed.

Lemma sum_incl {X} (f : X -> nat) l : NoDup l -> forall l', incl l l' -> list_sum (map f l) <= list_sum (map f l').
Proof.
  induction 1 as [|x l Nx N IH]; intros l' I; [apply Nat.le_0_l|].
  assert (Ix : In x l') by (apply I; now left). apply in_split in Ix. destruct Ix as (l1 & l2 & ->).
  assert (I2 : incl l (l1 ++ l2)).
  { intros y Iy. specialize (I y (or_intror Iy)). apply in_app_iff in I. destruct I as [I|[<-|I]]; [apply in_app_iff; auto | contradiction | apply in_app_iff; auto]. }
  specialize (IH _ I2). rewrite map_app, list_sum_app in *. cbn [map]. change (list_sum (f x :: ?r)) with (f x + list_sum r). lia.
Qed.
Definition size_at (a : addr) : nat := match nth_error hp a with Some (Some l) => length (l_children l) | _ => 0 end.
Lemma heap_edges_sum : heap_edges hp = list_sum (map size_at (seq 0 (length hp))).
Proof.
  unfold heap_edges, size_at. f_equal. clear HS. induction hp as [|c l IH] using rev_ind; [reflexivity|].
  rewrite app_length, Nat.add_comm. cbn [length plus]. rewrite seq_S, !map_app. cbn [map plus].
  rewrite nth_error_app2, Nat.sub_diag by lia. cbn [nth_error]. f_equal. rewrite IH. apply map_ext_in. intros i I. apply in_seq in I.
  rewrite nth_error_app1 by lia. reflexivity.
Qed.
Lemma as_range a : In a as_ -> a < length hp.
Proof.
  intros I. apply In_nth_error in I. destruct I as (i & E). destruct (Forall2_nth1 _ _ _ _ _ (s_cells _ _ _ _ _ HS) E) as (l & _ & l' & E' & _).
  eapply nth_error_lt; eauto.
Qed.
Lemma edges_le : num_edges (links m) <= heap_edges hp.
Proof.
  assert (E : num_edges (links m) = list_sum (map size_at as_)).
  { unfold num_edges, size_at. f_equal. pose proof (s_cells _ _ _ _ _ HS) as F. induction F as [|a l as1 ls (l' & E' & C) F IH]; cbn [map]; [reflexivity|].
    rewrite E', IH. f_equal. symmetry. eapply Forall2_length', (ce_ch _ _ _ _ C eq_refl). }
  rewrite E, heap_edges_sum. apply sum_incl; [apply (s_nodup _ _ _ _ _ HS)|]. intros a I. apply in_seq. pose proof (as_range a I). lia.
Qed.

Lemma rp_both k a c t : Shape m -> table_fits (links m) k t -> ptr as_ a c -> c < length (links m) ->
  h_rp_joint hp k a t = rp_joint (links m) k c t.
Proof.
  intros Sh Ft P Lc. assert (F : Forall2 (ptr as_) [a] [c]) by (constructor; auto).
  unfold h_rp_joint. rewrite loop2_turns.
  pose proof (turns_both k (2 ^ S (num_edges (links m))) [a] [c] t F) as H1.
  pose proof (turns_both k (2 ^ S (heap_edges hp)) [a] [c] t F) as H2.
  destruct (turns (2 ^ S (num_edges (links m))) (rp_step (links m) k) ([c], t)) as [x|r] eqn:E1.
  - assert (D : rp_joint (links m) k c t = Diverge) by (unfold rp_joint; now rewrite loop2_turns, E1).
    rewrite D. apply (diverge_adequate (links m) k c t Ft (fun i l d => sh_children m Sh i l d) Lc) with (n := 2 ^ S (heap_edges hp)) in D.
    destruct D as (s & D). rewrite D in H2. destruct (turns (2 ^ S (heap_edges hp)) (h_rp_step hp k) ([a], t)); [reflexivity | contradiction].
  - assert (D : rp_joint (links m) k c t = r) by (unfold rp_joint; now rewrite loop2_turns, E1). rewrite D.
    destruct (turns (2 ^ S (num_edges (links m))) (h_rp_step hp k) ([a], t)) as [x|r'] eqn:E2; [contradiction|]. subst r'.
    rewrite (turns_more _ _ (2 ^ S (heap_edges hp)) _ _ E2); auto. apply Nat.pow_le_mono_r; [lia|]. pose proof edges_le. lia.
Qed.

Lemma update_both : Shape m -> simat true hp as_ h m (h_update_rptable hp) update_rptable.
Proof.
  intros Sh. unfold h_update_rptable, update_rptable. apply simat_get2. pose proof (s_mem _ _ _ _ _ HS) as Mm. rewrite (me_jids _ _ _ Mm), (me_lids _ _ _ Mm).
  set (body' := fun (j : Joint) (t : list (list bool)) => let? jid := match assoc (j_name j) (joint_ids m) with Some i => Ok i | None => Throw OutOfRange end in
               let? c := deref (lock hp (j_child j)) in h_rp_joint hp jid c t).
  set (body := fun (j : Joint) (t : list (list bool)) => let? jid := match assoc (j_name j) (joint_ids m) with Some i => Ok i | None => Throw OutOfRange end in
               let? c := deref (j_child j) in rp_joint (links m) jid c t).
  assert (G : forall l' l t, Forall2 (fun j' j => jlike j' j /\ orel (ptr as_) (j_child j') (j_child j)) l' l -> (forall j, In j l -> In j (joints m)) ->
     dims (length (link_ids m)) (length (joint_ids m)) t -> rfor l' t body' = rfor l t body).
  { intros l' l t F. revert t. induction F as [|j' j l' l (Jl & Pc) F IH]; intros t Hj Dt; [reflexivity|]. cbn [rfor].
    destruct (sh_joints m Sh j (Hj j (or_introl eq_refl))) as (k & c & E1 & L1 & E2 & L2).
    assert (Ft : table_fits (links m) k t).
    { destruct Dt as (Dl & Df). split.
      - intros i lk E. rewrite (sh_ids m Sh i lk E), Dl, (sh_lids m Sh). eapply nth_error_lt; eauto.
      - eapply Forall_impl; [|exact Df]. cbn. intros r ->. exact L1. }
    assert (Eb : body' j' t = body j t).
    { unfold body', body. destruct Jl as (-> & _). rewrite E1. cbn [rbind]. rewrite (s_lock _ _ _ _ _ _ _ HS Pc), E2.
      rewrite E2 in Pc. destruct (j_child j') as [a|]; [|easy]. cbn [deref rbind]. now apply rp_both. }
    rewrite Eb. assert (Eb2 : body j t = rp_joint (links m) k c t) by (unfold body; now rewrite E1, E2).
    destruct (body j t) as [t'|x|u|] eqn:E3; cbn [rbind]; auto. apply IH; [intros x I; apply Hj; now right|]. eapply dims_rp; eauto. }
  rewrite (G (joints (hk h)) (joints m)); [| apply (me_joints _ _ _ Mm) | auto |].
  2:{ split; [apply repeat_length|]. apply Forall_forall. intros r I. apply repeat_spec in I. subst r. apply repeat_length. }
  apply simat_lift1; auto. intros t. split; [reflexivity|]. split; [|repeat split]. apply (sim_set true hp as_ h m); auto. now apply mem_rptable.
Qed.
End Rp.

(** ** add_new_link *)
(** what a call on a model with links [as_] may do to the heap *)
Record frame (as_ as2 : list addr) (hp hp2 : Heap) : Prop := {
  fr_len : length hp <= length hp2;
  fr_out : forall b, b < length hp -> ~ In b as_ -> nth_error hp2 b = nth_error hp b;
  fr_new : forall b, In b as2 -> In b as_ \/ length hp <= b;
  fr_old : exists x, as2 = as_ ++ x;
  fr_all : forall b, length hp <= b -> b < length hp2 -> In b as2 }.
Definition alike (l' l : Link) : Prop :=
  l_name l' = l_name l /\ l_id l' = l_id l /\ l_inertial l' = l_inertial l /\ l_parent l' = l_parent l /\ l_pjoint l' = l_pjoint l.
Definition skeleton (hp hp2 : Heap) : Prop := forall b l, nth_error hp b = Some (Some l) -> exists l2, nth_error hp2 b = Some (Some l2) /\ alike l2 l.

Lemma frame_refl as_ hp : frame as_ as_ hp hp.
Proof. constructor; auto; [exists []; now rewrite app_nil_r | intros; lia]. Qed.
Lemma frame_trans a1 a2 a3 h1 h2 h3 : (forall a, In a a1 -> a < length h1) -> frame a1 a2 h1 h2 -> frame a2 a3 h2 h3 -> frame a1 a3 h1 h3.
Proof.
  intros Rg [L1 O1 N1 I1 W1] [L2 O2 N2 I2 W2]. constructor; [lia| | | |].
  - intros b Lb Nb. rewrite O2; [now apply O1 | lia |]. intros I. apply N1 in I. destruct I; [auto | lia].
  - intros b I. apply N2 in I. destruct I as [I|I]; [now apply N1 in I | right; lia].
  - destruct I1 as (x & ->), I2 as (y & ->). exists (x ++ y). now rewrite app_assoc.
  - intros b Lb Lb2. destruct (Nat.lt_ge_cases b (length h2)) as [L|L]; [|auto]. destruct I2 as (y & ->). apply in_app_iff. auto.
Qed.

Lemma ptr_more as_ a b i : ptr as_ a i -> ptr (as_ ++ [b]) a i.
Proof. intros H. unfold ptr in *. rewrite nth_error_app1; auto. eapply nth_error_lt; eauto. Qed.
Lemma orel_more as_ b w w' : orel (ptr as_) w w' -> orel (ptr (as_ ++ [b])) w w'.
Proof. destruct w, w'; cbn [orel]; auto. apply ptr_more. Qed.
Lemma cell_more as_ b e l' l : cell as_ e l' l -> cell (as_ ++ [b]) e l' l.
Proof. intros [a1 a2 a3 a4 a5 a6]. constructor; auto using orel_more. intros E. eapply Forall2_weaken; [|exact (a6 E)]. intros x y. apply ptr_more. Qed.
Lemma mem_more as_ b k m : mem as_ k m -> mem (as_ ++ [b]) k m.
Proof.
  intros [a1 a2 a3 a4 a5 a6 a7 a8 a9 a10 a11 a12]. constructor; auto.
  - eapply Forall2_weaken; [|exact a3]. intros x y. apply ptr_more.
  - eapply Forall2_weaken; [|exact a4]. intros x y (J & P). split; auto. now apply orel_more.
Qed.
Lemma mem_links ls ls2 ids as_ k m : mem as_ k m -> mem as_ (set_links ls2 ids k) (set_links ls ids m).
Proof. intros H. destruct H. constructor; auto. Qed.

Lemma as_inj hp as_ h m e a i j : Sim e hp as_ h m -> ptr as_ a i -> ptr as_ a j -> i = j.
Proof.
  intros HS P Q. pose proof (s_nodup _ _ _ _ _ HS) as N. rewrite NoDup_nth_error in N. apply N; [eapply nth_error_lt; eauto|]. unfold ptr in *. congruence.
Qed.

Definition after_add (as_ : list addr) (hp : Heap) (m : KM) (r : res nat) (s2 : HS) (m2 : KM) : Prop :=
  match r with
  | Ok _ | Throw _ => exists as2, Sim true (fst s2) as2 (snd s2) m2 /\ Shape m2 /\ frame as_ as2 hp (fst s2) /\ skeleton hp (fst s2)
  | _ => True
  end.

Lemma vget_as hp as_ h m e p : Sim e hp as_ h m -> (exists a l, vget (hlinks h) p = Ok a /\ vget (links m) p = Ok l /\ ptr as_ a p) \/
  (vget (hlinks h) p = UB OutOfBounds /\ vget (links m) p = UB OutOfBounds).
Proof.
  intros HS. rewrite (s_as _ _ _ _ _ HS). destruct (Forall2_vget _ _ _ p (s_cells _ _ _ _ _ HS)) as [(a & l & E1 & E2 & _)|(E1 & E2)]; [left|now right].
  exists a, l. repeat split; auto. now apply vget_ok.
Qed.

Lemma alike_refl l : alike l l. Proof. repeat split. Qed.

Lemma add_both hp as_ h m name p pose : Sim true hp as_ h m -> Shape m ->
  snd (h_add_new_link_pose name p pose (hp, h)) = snd (add_new_link_pose name p pose m) /\
  after_add as_ hp m (snd (add_new_link_pose name p pose m)) (fst (h_add_new_link_pose name p pose (hp, h))) (fst (add_new_link_pose name p pose m)).
Proof.
  intros HS Sh. pose proof (s_mem _ _ _ _ _ HS) as Mm. pose proof (s_as _ _ _ _ _ HS) as Eas.
  assert (Len : length (hlinks h) = length (links m)) by (rewrite Eas; eapply Forall2_length', (s_cells _ _ _ _ _ HS)).
  destruct (assoc name (link_ids m)) as [x|] eqn:Nn.
  { unfold h_add_new_link_pose, add_new_link_pose. rewrite !bind_get. cbn [fst snd]. rewrite (me_lids _ _ _ Mm), Nn. split; [reflexivity|]. cbn [throw fst snd after_add].
    exists as_. split; [exact HS|]. split; [exact Sh|]. split; [apply frame_refl|]. intros b l E. exists l. split; [exact E | apply alike_refl]. }
  destruct (vget_as _ _ _ _ _ p HS) as [(pa & pl & Ea & El & P)|(Ea & El)].
  2:{ unfold h_add_new_link_pose, add_new_link_pose. rewrite !bind_get. cbn [fst snd]. rewrite (me_lids _ _ _ Mm), Nn, Ea, El. split; [reflexivity|exact I]. }
  apply vget_ok in El. rewrite (add_link_eq name p pose pl m El Nn).
  destruct (s_obj _ _ _ _ _ _ _ HS P) as (pl' & pl0 & Ep' & Ep & C). apply vget_ok in Ep. rewrite El in Ep. injection Ep as <-.
  assert (Epa : nth_error hp pa = Some (Some pl')) by (unfold obj in Ep'; destruct (nth_error hp pa) as [[x|]|]; congruence).
  pose proof (nth_error_lt _ _ _ Epa) as Lpa. pose proof (nth_error_lt _ _ _ El) as Lp.
  set (a := length hp). set (n := length (links m)).
  set (nl' := mkLink name n None (Some pa) (Some (fixed_joint pose)) []).
  set (hp2 := list_set (hp ++ [Some nl']) pa (Some (push_child a pl'))).
  set (k2 := set_tcache (cache_extend pose_clear (tcache (hk h))) (set_links [] (ids_insert name n (link_ids (hk h))) (hk h))).
  set (h2 := mkHM k2 (as_ ++ [a])).
  assert (Eh : h_add_new_link_pose name p pose (hp, h) = (reading h_update_rptable ;;; ret n) (hp2, h2)).
  { unfold h_add_new_link_pose. rewrite bind_get. cbn [fst snd]. rewrite (me_lids _ _ _ Mm), Nn, (bind_lift_ok _ _ _ _ Ea), Len. fold n. fold nl'. rewrite Eas.
    assert (E2 : vget (as_ ++ [a]) p = Ok pa) by (apply vget_ok; now apply ptr_more). fold a. rewrite (bind_lift_ok _ _ _ _ E2).
    assert (E3 : obj (hp ++ [Some nl']) pa = Ok pl') by (unfold obj; rewrite nth_error_app1 by auto; now rewrite Epa). rewrite (bind_lift_ok _ _ _ _ E3), bind_put.
    unfold h2, k2. rewrite (me_lids _ _ _ Mm). reflexivity. }
  assert (Hp2 : forall b l, nth_error hp b = Some (Some l) -> nth_error hp2 b = Some (Some (if Nat.eqb pa b then push_child a pl' else l))).
  { intros b l E. unfold hp2. pose proof (nth_error_lt _ _ _ E) as Lb. rewrite nth_error_list_set. destruct (Nat.eqb_spec pa b) as [->|Nb].
    - replace (b <? length (hp ++ [Some nl'])) with true by (symmetry; apply Nat.ltb_lt; rewrite app_length; lia). reflexivity.
    - now rewrite nth_error_app1. }
  assert (Hnew : nth_error hp2 a = Some (Some nl')).
  { unfold hp2. rewrite nth_error_list_set_ne by (unfold a; lia). unfold a. rewrite nth_error_app2, Nat.sub_diag by lia. reflexivity. }
  assert (Pn : ptr (as_ ++ [a]) a n).
  { unfold ptr, n. rewrite <- Len, Eas. rewrite nth_error_app2, Nat.sub_diag by lia. reflexivity. }
  assert (HS2 : Sim true hp2 (as_ ++ [a]) h2 (grown name p pose pl m)).
  { constructor.
    - reflexivity.
    - unfold grown. cbn [links set_tcache set_links]. unfold links_after. apply Forall2_app.
      + apply Forall2_by_nth; [rewrite list_set_length, <- Eas; exact Len|]. intros i b l Eb E. rewrite nth_error_list_set in E.
        destruct (Forall2_nth1 _ _ _ _ _ (s_cells _ _ _ _ _ HS) Eb) as (l0 & El0 & l' & E' & C0). destruct (Nat.eqb_spec p i) as [<-|Ni].
        * replace (p <? length (links m)) with true in E by (symmetry; now apply Nat.ltb_lt). injection E as <-.
          assert (b = pa) by (unfold ptr in P; congruence). subst b. exists (push_child a pl'). split; [rewrite (Hp2 _ _ Epa), Nat.eqb_refl; reflexivity|].
          destruct (cell_more _ a _ _ _ C) as [a1 a2 a3 a4 a5 a6]. constructor; auto. intros _. cbn [push_child l_children]. apply Forall2_app; [now apply a6|]. constructor; [exact Pn | constructor].
        * assert (pa <> b) by (intros ->; apply Ni; eapply as_inj; eauto). exists l'. rewrite (Hp2 _ _ E'). destruct (Nat.eqb_spec pa b); [contradiction|]. split; [reflexivity|].
          apply cell_more. congruence.
      + constructor; [|constructor]. exists nl'. split; [exact Hnew|]. constructor; try reflexivity.
        * cbn [nl' new_link l_parent orel]. now apply ptr_more.
        * repeat split.
        * constructor.
    - apply NoDup_snoc1; [apply (s_nodup _ _ _ _ _ HS)|]. intros I. pose proof (as_range _ _ _ _ HS _ I). unfold a in *. lia.
    - unfold h2, k2, grown, ids_insert. cbn [hk]. rewrite (me_cache _ _ _ Mm), (me_lids _ _ _ Mm). apply mem_tcache, mem_links, mem_more, Mm. }
  pose proof (grown_shape name p pose pl m Sh El) as Sg.
  destruct (update_both _ _ _ _ HS2 Sg) as (Er & HS3 & K).
  rewrite Eh. unfold bind, reading. cbn [fst snd]. destruct (h_update_rptable hp2 h2) as [h3 r3], (update_rptable (grown name p pose pl m)) as [m3 r3']. cbn [fst snd] in *. subst r3'.
  destruct (shape_ext (grown name p pose pl m) m3 Sg) as (S3 & _); [destruct K as (-> & _); reflexivity | apply K ..|].
  assert (Fr : frame as_ (as_ ++ [a]) hp hp2).
  { constructor.
    - unfold hp2. rewrite list_set_length, app_length. lia.
    - intros b Lb Nb. unfold hp2. rewrite nth_error_list_set_ne; [now rewrite nth_error_app1|]. intros <-. apply Nb. eapply nth_error_In; eauto.
    - intros b I. apply in_app_iff in I. destruct I as [I|[<-|[]]]; auto.
    - now exists [a].
    - intros b Lb Lb2. unfold hp2 in Lb2. rewrite list_set_length, app_length in Lb2. cbn [length] in Lb2. apply in_app_iff. right. left. unfold a. lia. }
  assert (Sk : skeleton hp hp2).
  { intros b l E. eexists. split; [apply (Hp2 _ _ E)|]. destruct (Nat.eqb_spec pa b) as [<-|]; [|apply alike_refl]. rewrite Epa in E. injection E as <-. repeat split. }
  destruct r3 as [[]|x|u|]; cbn [ret fst snd]; (split; [reflexivity|]); cbn [after_add]; auto; exists (as_ ++ [a]); auto.
Qed.

Lemma add_both_rpy hp as_ h m name p pos rpy : Sim true hp as_ h m -> Shape m ->
  snd (h_add_new_link name p pos rpy (hp, h)) = snd (add_new_link name p pos rpy m) /\
  after_add as_ hp m (snd (add_new_link name p pos rpy m)) (fst (h_add_new_link name p pos rpy (hp, h))) (fst (add_new_link name p pos rpy m)).
Proof. intros HS Sh. unfold h_add_new_link, add_new_link. now apply add_both. Qed.

(** ** the constructor *)
Lemma mem_links_r ls as_ k m : mem as_ k m -> mem as_ k (set_links ls (link_ids m) m).
Proof. intros H. destruct H. constructor; auto. Qed.
Lemma sim_set_cell e hp as_ h m a i l' l : Sim e hp as_ h m -> ptr as_ a i -> cell as_ e l' l ->
  Sim e (list_set hp a (Some l')) as_ h (set_links (list_set (links m) i l) (link_ids m) m).
Proof.
  intros HS P C. constructor; [apply HS | | apply HS | apply mem_links_r, HS]. cbn [links set_links].
  pose proof (s_cells _ _ _ _ _ HS) as F. apply Forall2_by_nth; [rewrite list_set_length; eapply Forall2_length'; eauto|].
  intros j b x Eb Ex. destruct (Forall2_nth1 _ _ _ _ _ F Eb) as (l0 & El0 & l1 & E1 & C1). rewrite nth_error_list_set in Ex. rewrite nth_error_list_set.
  destruct (Nat.eqb_spec i j) as [<-|Ni].
  - assert (b = a) by (unfold ptr in P; congruence). subst b. rewrite Nat.eqb_refl.
    destruct (Nat.ltb_spec i (length (links m))); [|discriminate]. injection Ex as <-.
    replace (a <? length hp) with true by (symmetry; apply Nat.ltb_lt; eapply nth_error_lt; eauto). eauto.
  - destruct (Nat.eqb_spec a b) as [<-|Nb]; [exfalso; apply Ni; eapply as_inj; eauto|]. exists l1. split; [auto | congruence].
Qed.
Lemma cell_inertial as_ e l' l x : cell as_ e l' l -> cell as_ e (set_inertial x l') (set_inertial x l).
Proof. intros [a1 a2 a3 a4 a5 a6]. constructor; auto. Qed.

Lemma ptr_prefix as_ x a i : ptr as_ a i -> ptr (as_ ++ x) a i.
Proof. intros H. unfold ptr in *. rewrite nth_error_app1; auto. eapply nth_error_lt; eauto. Qed.

Definition com_end (as_ : list addr) (hp : Heap) (x : HS * res (list addr)) (y : KM * res (list nat)) : Prop :=
  match snd x, snd y with
  | Ok acc', Ok acc => exists as2, Sim true (fst (fst x)) as2 (snd (fst x)) (fst y) /\ Shape (fst y) /\ frame as_ as2 hp (fst (fst x)) /\ Forall2 (ptr as2) acc' acc
  | Throw a, Throw b => a = b
  | UB a, UB b => a = b
  | Diverge, Diverge => True
  | _, _ => False
  end.

Lemma frame_set as_ as2 hp hp2 a c : frame as_ as2 hp hp2 -> In a as2 -> frame as_ as2 hp (list_set hp2 a c).
Proof.
  intros [a1 a2 a3 a4 a5] I. constructor; auto; [rewrite list_set_length; auto | | rewrite list_set_length; auto]. intros b Lb Nb. rewrite nth_error_list_set_ne; auto.
  intros <-. apply a3 in I. destruct I; [auto | lia].
Qed.

Lemma com_both hp as_ h m i acc' acc : Sim true hp as_ h m -> Shape m -> Forall2 (ptr as_) acc' acc ->
  com_end as_ hp (h_add_com_link i acc' (hp, h)) (add_com_link i acc m).
Proof.
  intros HS Sh F. unfold h_add_com_link, add_com_link. rewrite !bind_get. cbn [fst snd].
  destruct (vget_as _ _ _ _ _ i HS) as [(a & l & Ea & El & P)|(Ea & El)].
  2:{ rewrite Ea, El. reflexivity. }
  rewrite (bind_lift_ok _ _ _ _ Ea), (bind_lift_ok _ _ _ _ El).
  destruct (s_obj _ _ _ _ _ _ _ HS P) as (l' & l0 & E' & E & C). rewrite El in E. injection E as <-. rewrite (bind_lift_ok _ _ _ _ E').
  rewrite (ce_in _ _ _ _ C), (ce_name _ _ _ _ C), (ce_id _ _ _ _ C). destruct (l_inertial l) as [ine|].
  2:{ cbn [ret]. exists as_. split; [exact HS|]. split; [exact Sh|]. split; [apply frame_refl | exact F]. }
  set (name := (l_name l ++ "_com")%string). set (pose := mkPose _ _).
  destruct (add_both hp as_ h m name (l_id l) pose HS Sh) as (Er & Af).
  destruct (h_add_new_link_pose name (l_id l) pose (hp, h)) as [[hp1 h1] r'] eqn:E1. destruct (add_new_link_pose name (l_id l) pose m) as [m1 r] eqn:E2.
  cbn [fst snd] in *. subst r'. destruct r as [nid|x|u|].
  2-4: (unfold com_end, bind; rewrite E1, E2; cbn [snd]; auto).
  rewrite (bind_ok _ _ _ _ _ E1), (bind_ok _ _ _ _ _ E2).
  rewrite !bind_get. cbn [fst snd]. destruct Af as (as2 & HS2 & Sh2 & Fr & Sk). cbn [fst snd] in *.
  destruct (vget_as _ _ _ _ _ nid HS2) as [(na & nl & Ena & Enl & Pn)|(Ena & Enl)].
  2:{ rewrite Ena, Enl. reflexivity. }
  rewrite (bind_lift_ok _ _ _ _ Ena), (bind_lift_ok _ _ _ _ Enl).
  destruct (s_obj _ _ _ _ _ _ _ HS2 Pn) as (nl' & nl0 & En' & En & Cn). rewrite Enl in En. injection En as <-. rewrite (bind_lift_ok _ _ _ _ En').
  assert (P2 : ptr as2 a i) by (destruct (fr_old _ _ _ _ Fr) as (x & ->); now apply ptr_prefix).
  destruct (s_obj _ _ _ _ _ _ _ HS2 P2) as (lk' & lk & Ek' & Ek & Ck). rewrite (bind_lift_ok _ _ _ _ Ek'), (bind_lift_ok _ _ _ _ Ek), bind_put.
  apply vget_ok in Enl. apply vget_ok in Ek. pose proof (nth_error_lt _ _ _ Enl) as L1. pose proof (nth_error_lt _ _ _ Ek) as L2.
  rewrite (bind_lift_ok _ _ _ _ (vset_lt (links m1) nid _ L1)).
  match goal with |- context [vset ?v i ?q] => rewrite (bind_lift_ok _ _ _ _ (vset_lt v i q ltac:(rewrite list_set_length; exact L2))) end.
  rewrite bind_put. cbn [ret]. unfold com_end. cbn [fst snd]. exists as2.
  pose proof (sim_set_cell _ _ _ _ _ _ _ _ _ HS2 Pn (cell_inertial _ _ _ _ (Some (reset_origin ine)) Cn)) as HS3.
  pose proof (sim_set_cell _ _ _ _ _ _ _ _ _ HS3 P2 (cell_inertial _ _ _ _ (Some (reset_origin ine)) Ck)) as HS4.
  split; [exact HS4|]. split; [|split].
  - destruct (shape_ext m1 (set_links (list_set (list_set (links m1) nid (set_inertial (Some (reset_origin ine)) nl)) i (set_inertial (Some (reset_origin ine)) lk)) (link_ids m1) m1) Sh2) as (X & _); auto.
    cbn [links set_links]. rewrite !map_list_set. rewrite list_set_same.
    + rewrite list_set_same; [reflexivity|]. now rewrite nth_error_map', Enl.
    + rewrite list_set_same; [now rewrite nth_error_map', Ek | now rewrite nth_error_map', Enl].
  - apply frame_set; [apply frame_set|]; auto; eapply nth_error_In; eauto.
  - apply Forall2_app; [|constructor; [exact Pn | constructor]]. eapply Forall2_weaken; [|exact F]. intros x y. destruct (fr_old _ _ _ _ Fr) as (z & ->). apply ptr_prefix.
Qed.

Lemma com_loop_both l : forall hp as_ h m acc' acc, Sim true hp as_ h m -> Shape m -> Forall2 (ptr as_) acc' acc ->
  com_end as_ hp (for_each l acc' h_add_com_link (hp, h)) (for_each l acc add_com_link m).
Proof.
  induction l as [|i l IH]; intros hp as_ h m acc' acc HS Sh F.
  { cbn [for_each ret]. exists as_. split; [exact HS|]. split; [exact Sh|]. split; [apply frame_refl | exact F]. }
  cbn [for_each]. pose proof (com_both hp as_ h m i acc' acc HS Sh F) as H. unfold bind.
  destruct (h_add_com_link i acc' (hp, h)) as [[hp1 h1] r'], (add_com_link i acc m) as [m1 r]. unfold com_end in H at 1. cbn [fst snd] in H.
  destruct r' as [b'|x'|u'|], r as [b|x|u|]; try contradiction; try exact H.
  destruct H as (as2 & HS2 & Sh2 & Fr & F2). specialize (IH _ _ _ _ _ _ HS2 Sh2 F2).
  destruct (for_each l b' h_add_com_link (hp1, h1)) as [[hp3 h3] r3'], (for_each l b add_com_link m1) as [m3 r3]. unfold com_end in *. cbn [fst snd] in *.
  destruct r3', r3; auto. destruct IH as (as3 & HS3 & Sh3 & Fr3 & F3). exists as3. split; [exact HS3|]. split; [exact Sh3|]. split; [|exact F3].
  eapply frame_trans; eauto. intros. eapply as_range; eauto.
Qed.

(** pointers between the links of a model *)
Record inside (m : KM) : Prop := {
  in_par : forall i l p, nth_error (links m) i = Some l -> l_parent l = Some p -> p < length (links m);
  in_ch : forall i l c, nth_error (links m) i = Some l -> In c (l_children l) -> c < length (links m);
  in_jc : forall j c, In j (joints m) -> j_child j = Some c -> c < length (links m) }.

Lemma nth_seq b n i : i < n -> nth_error (seq b n) i = Some (b + i).
Proof. revert b i. induction n as [|n IH]; intros b [|i] H; try lia; cbn [seq nth_error]; [f_equal; lia|]. rewrite IH by lia. f_equal. lia. Qed.
Lemma map_fst_combine1 {X Y} : forall (l : list X) (l' : list Y), length l = length l' -> map fst (combine l l') = l.
Proof. induction l as [|x l IH]; intros [|y l'] E; try discriminate; cbn [combine map fst]; [reflexivity|]. rewrite IH; auto. Qed.
Lemma ptr_seq b n i : i < n -> ptr (seq b n) (b + i) i.
Proof. apply nth_seq. Qed.
Lemma opt_seq b n w : (forall p, w = Some p -> p < n) -> orel (ptr (seq b n)) (option_map (Nat.add b) w) w.
Proof. destruct w as [p|]; cbn [option_map orel]; auto. intros H. apply ptr_seq. auto. Qed.
Lemma jlike_move b j : jlike (move_joint b j) j.
Proof. repeat split. Qed.

Lemma members_both hp m : inside m -> com_dummy_links m = [] ->
  Sim true (fst (h_members hp m)) (seq (length hp) (length (links m))) (snd (h_members hp m)) m /\
  frame [] (seq (length hp) (length (links m))) hp (fst (h_members hp m)).
Proof.
  intros In Cm. unfold h_members. cbn [fst snd]. set (b := length hp). set (n := length (links m)). split; [constructor|constructor].
  - reflexivity.
  - apply Forall2_by_nth; [apply seq_length|]. intros i a l Ea El. pose proof (nth_error_lt _ _ _ El) as Li. fold n in Li. rewrite nth_seq in Ea by auto. injection Ea as <-.
    exists (move_link b l). split.
    + rewrite nth_error_app2 by (unfold b; lia). fold b. replace (b + i - b) with i by lia. now rewrite nth_error_map', El.
    + constructor; try reflexivity.
      * apply opt_seq. intros p E. eapply in_par; eauto.
      * cbn [move_link l_pjoint]. destruct (l_pjoint l); [|exact I]. apply jlike_move.
      * intros _. cbn [move_link l_children]. assert (X : forall c, List.In c (l_children l) -> c < n) by (intros c; eapply in_ch; eauto). clear - X.
        induction (l_children l) as [|c cs IH]; [constructor|]. cbn [map]. constructor; [apply ptr_seq, X; now left | apply IH; intros d I; apply X; now right].
  - apply seq_NoDup.
  - constructor; try reflexivity.
    + cbn [hk com_dummy_links]. rewrite Cm. constructor.
    + cbn [hk joints]. assert (X : forall j c, List.In j (joints m) -> j_child j = Some c -> c < n) by (apply In). clear - X.
      induction (joints m) as [|j js IH]; [constructor|]. cbn [map]. constructor.
      * split; [apply jlike_move|]. cbn [move_joint j_child]. apply opt_seq. intros p E. apply (X j); [now left | auto].
      * apply IH. intros j' c I. apply X. now right.
  - rewrite app_length. fold b. lia.
  - intros c Lc _. rewrite nth_error_app1; auto.
  - intros c I. apply in_seq in I. right. fold b. lia.
  - now exists (seq b n).
  - intros c Lb Lc. rewrite app_length, map_length in Lc. apply in_seq. fold b n in Lb, Lc. lia.
Qed.

Lemma members_inside mi : inside (ctor_members mi).
Proof.
  assert (L : length (links (ctor_members mi)) = length (map fst (mi_links mi))).
  { unfold ctor_members. cbn [links]. rewrite map_length. unfold enumerate. rewrite combine_length, seq_length, map_length. lia. }
  assert (Hp : forall n k, pos_of n (map fst (mi_links mi)) = Some k -> k < length (links (ctor_members mi))).
  { intros n k E. rewrite L. apply pos_of_some in E. eapply nth_error_lt; eauto. }
  assert (X : forall i l, nth_error (links (ctor_members mi)) i = Some l -> exists kl jn, l = mk_link mi (map fst (mi_links mi)) jn i kl).
  { intros i l E. unfold ctor_members in E. cbn [links] in E. rewrite nth_error_map' in E. unfold enumerate in E.
    destruct (nth_error (combine (seq 0 (length (mi_links mi))) (mi_links mi)) i) as [[j kl]|] eqn:E2; [|discriminate]. injection E as <-. cbn [fst snd].
    assert (i = j); [|subst; eauto]. pose proof (nth_error_lt _ _ _ E2) as Li. rewrite combine_length, seq_length in Li.
    assert (E3 : nth_error (map fst (combine (seq 0 (length (mi_links mi))) (mi_links mi))) i = Some j) by (now rewrite nth_error_map', E2).
    rewrite map_fst_combine1 in E3 by apply seq_length. rewrite nth_seq in E3 by lia. now injection E3. }
  constructor.
  - intros i l p E Ep. destruct (X i l E) as (kl & jn & ->). cbn [mk_link l_parent] in Ep. destruct (ul_parent (snd kl)) as [q|]; [eauto | discriminate].
  - intros i l c E I. destruct (X i l E) as (kl & jn & ->). cbn [mk_link l_children] in I. apply in_flat_map in I. destruct I as (n & _ & I).
    destruct (pos_of n (map fst (mi_links mi))) as [k|] eqn:En; [|destruct I]. destruct I as [<-|[]]. eauto.
  - intros j c I E. unfold ctor_members in I. cbn [joints] in I. apply in_map_iff in I. destruct I as (kj & <- & _). cbn [mk_joint j_child] in E.
    destruct (movable (uj_type (snd kj))); [eauto | discriminate].
Qed.

Lemma ctor_both tinyxml text hp :
  match h_ctor tinyxml text hp, ctor tinyxml text with
  | (hp2, Ok h), Ok m => exists as2, Sim true hp2 as2 h m /\ Shape m /\ frame [] as2 hp hp2
  | (hp2, Throw x), Throw y => x = y /\ hp2 = hp
  | (hp2, UB x), UB y => x = y /\ hp2 = hp
  | (hp2, Diverge), Diverge => hp2 = hp
  | _, _ => False
  end.
Proof.
  unfold h_ctor, ctor. destruct text as [|c t]; [auto|]. unfold ctor_mi. set (doc := tinyxml _).
  destruct (parseURDF_dom doc) as [mi|] eqn:Ed; [|auto].
  destruct (negb (forallb (fun kj => supported (uj_type (snd kj))) (mi_joints mi))); [auto|].
  destruct (parse_inv doc mi Ed) as (top & R & Et & D & G). destruct (parse_graph top R (mi_root mi) D G) as (mi' & sorted & jall & Ep & RA).
  rewrite Et in Ed. rewrite Ed in Ep. injection Ep as <-. destruct (ctor_members_shape _ _ _ _ _ G RA) as (Sh & _). clear RA.
  pose proof (members_inside mi) as Ins. assert (Cm : com_dummy_links (ctor_members mi) = []) by reflexivity.
  set (m0 := ctor_members mi) in *. clearbody m0. destruct (members_both hp m0 Ins Cm) as (HS & Fr).
  destruct (h_members hp m0) as [hp1 h1]. cbn [fst snd] in *.
  pose proof (com_loop_both (seq 0 (length (links m0))) _ _ _ _ [] [] HS Sh (Forall2_nil _)) as H.
  destruct (for_each (seq 0 (length (links m0))) [] h_add_com_link (hp1, h1)) as [[hp2 h2] r'] eqn:E1.
  destruct (for_each (seq 0 (length (links m0))) [] add_com_link m0) as [m2 r] eqn:E2. unfold com_end in H. cbn [fst snd] in H.
  destruct r' as [acc'|x'|u'|], r as [acc|x|u|]; try contradiction.
  2-4: (unfold bind; rewrite E1, E2; auto).
  rewrite (bind_ok _ _ _ _ _ E1), (bind_ok _ _ _ _ _ E2), !bind_get, !bind_put. cbn [fst snd].
  destruct H as (as2 & HS2 & Sh2 & Fr2 & F2).
  assert (HS3 : Sim true hp2 as2 (mkHM (set_com_links acc' (hk h2)) (hlinks h2)) (set_com_links acc m2)).
  { constructor; [apply HS2 | apply HS2 | apply HS2 |]. cbn [hk]. destruct (s_mem _ _ _ _ _ HS2). constructor; auto. }
  assert (Sh3 : Shape (set_com_links acc m2)) by (destruct (shape_ext m2 (set_com_links acc m2) Sh2) as (X & _); auto).
  destruct (q_onk true hp2 as2 _ (loc_base as2 pose_clear) _ _ HS3) as (Er & HS4 & K).
  unfold reading. cbn [fst snd]. destruct (onk (set_base_pose pose_clear) _) as [h4 r4], (set_base_pose pose_clear (set_com_links acc m2)) as [m4 r5].
  cbn [fst snd] in *. subst r5. destruct r4 as [[]|x|u|]; auto.
  exists as2. split; [exact HS4|]. destruct K as (K1 & K2 & K3 & K4).
  split; [destruct (shape_ext (set_com_links acc m2) m4 Sh3) as (X & _); auto; now rewrite K1|].
  eapply frame_trans; eauto. intros a [].
Qed.

End PfHeap2.
