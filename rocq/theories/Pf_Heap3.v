(** Several models in one heap. *)
From Coq Require Import String Ascii List Arith Bool Lia.
From Verif Require Import Base Num Pose DataStructure Urdf Kin Heap Spec_Robot Spec_Load Spec_Graph Spec_Heap Pf_Base Pf_Data Inv Pf_Urdf Pf_Ctor Pf_Add Pf_Load Pf_Loop Pf_Dag Pf_Heap Pf_Heap2.
Import ListNotations.
Local Open Scope m_scope.

Section PfHeap3.
Context `{A : Arith}.
Variable tinyxml : string -> option (list xml).

(** ** freeing *)
Lemma nth_enum (hp : Heap) a : nth_error (enum_heap hp) a = option_map (fun c => (a, c)) (nth_error hp a).
Proof.
  unfold enum_heap. rewrite nth_error_combine. destruct (nth_error hp a) as [c|] eqn:E; cbn [option_map].
  - rewrite nth_seq by (eapply nth_error_lt; eauto). reflexivity.
  - destruct (nth_error (seq 0 (length hp)) a); reflexivity.
Qed.
Lemma sweep_once_nth ms hp a : nth_error (sweep_once ms hp) a = option_map (fun c => if owned ms hp a then c else None) (nth_error hp a).
Proof. unfold sweep_once. rewrite nth_error_map', nth_enum. now destruct (nth_error hp a). Qed.
Lemma sweep_once_len ms hp : length (sweep_once ms hp) = length hp.
Proof. unfold sweep_once, enum_heap. rewrite map_length, combine_length, seq_length. lia. Qed.
Lemma sweep_len ms n : forall hp, length (sweep n ms hp) = length hp.
Proof. induction n as [|n IH]; intros hp; cbn [sweep]; [auto|]. now rewrite IH, sweep_once_len. Qed.
Lemma owned_by ms hp i h a : nth_error ms i = Some (Some h) -> In a (hlinks h) -> owned ms hp a = true.
Proof.
  intros E I. unfold owned. apply orb_true_iff. left. apply existsb_exists. exists (Some h). split; [eapply nth_error_In; eauto|].
  apply existsb_exists. exists a. split; [exact I | apply Nat.eqb_refl].
Qed.
Lemma sweep_keeps ms n i h a : nth_error ms i = Some (Some h) -> In a (hlinks h) -> forall hp, nth_error (sweep n ms hp) a = nth_error hp a.
Proof.
  intros E I. induction n as [|n IH]; intros hp; cbn [sweep]; [auto|]. rewrite IH, sweep_once_nth, (owned_by _ _ _ _ _ E I). now destruct (nth_error hp a).
Qed.

(** ** moving a simulation to another heap *)
Lemma sim_heap e e2 hp hp2 as_ h m : (e2 = true -> e = true) -> Sim e hp as_ h m -> (forall a, In a as_ -> nth_error hp2 a = nth_error hp a) -> Sim e2 hp2 as_ h m.
Proof.
  intros Ee HS H. constructor; [apply HS | | apply HS | apply HS]. apply Forall2_by_nth; [eapply Forall2_length', (s_cells _ _ _ _ _ HS)|].
  intros i a l Ea El. destruct (Forall2_nth1 _ _ _ _ _ (s_cells _ _ _ _ _ HS) Ea) as (l0 & El0 & l' & E' & C).
  exists l'. rewrite H by (eapply nth_error_In; eauto). split; auto. replace l with l0 by congruence. destruct C as [a1 a2 a3 a4 a5 a6]. constructor; auto.
Qed.
Lemma sim_skeleton e hp hp2 as_ h m : Sim e hp as_ h m -> skeleton hp hp2 -> Sim false hp2 as_ h m.
Proof.
  intros HS H. constructor; [apply HS | | apply HS | apply HS]. apply Forall2_by_nth; [eapply Forall2_length', (s_cells _ _ _ _ _ HS)|].
  intros i a l Ea El. destruct (Forall2_nth1 _ _ _ _ _ (s_cells _ _ _ _ _ HS) Ea) as (l0 & El0 & l' & E' & C).
  destruct (H _ _ E') as (l2 & E2 & B1 & B2 & B3 & B4 & B5). exists l2. split; auto. replace l with l0 by congruence. destruct C as [a1 a2 a3 a4 a5 a6].
  constructor; congruence.
Qed.
Lemma as_range' e hp as_ h m a : Sim e hp as_ h m -> In a as_ -> a < length hp.
Proof.
  intros HS I. apply In_nth_error in I. destruct I as (i & E). destruct (Forall2_nth1 _ _ _ _ _ (s_cells _ _ _ _ _ HS) E) as (l & _ & l' & E' & _).
  eapply nth_error_lt; eauto.
Qed.

(** ** the invariant *)
Definition slot (hp : Heap) (ok : bool) (x : option HM) (y : option KM) : Prop :=
  match x, y with
  | Some h, Some m => Sim ok hp (hlinks h) h m /\ Shape m
  | None, None => True
  | _, _ => False
  end.
Record Inv2 (tags : list (nat * bool)) (w : world) (ms : list (option KM)) : Prop := {
  v_len : length (w_models w) = length tags;
  v_len2 : length ms = length tags;
  v_fam : forall i t, nth_error tags i = Some t -> fst t < length tags;
  v_slot : forall i t x y, nth_error tags i = Some t -> nth_error (w_models w) i = Some x -> nth_error ms i = Some y -> slot (w_heap w) (snd t) x y;
  v_apart : forall i j t u h k a, nth_error tags i = Some t -> nth_error tags j = Some u -> fst t <> fst u ->
      nth_error (w_models w) i = Some (Some h) -> nth_error (w_models w) j = Some (Some k) -> In a (hlinks h) -> In a (hlinks k) -> False }.

Definition next_tags (tags : list (nat * bool)) (e : event) : list (nat * bool) :=
  match e with
  | E_new _ => tags ++ [(length tags, true)]
  | E_copy i => tags ++ [nth i tags (length tags, true)]
  | E_delete _ => tags
  | E_call i c => if adds c then match nth_error tags i with None => tags | Some (f, _) => outdate i f tags end else tags
  end.
Definition allowed (tags : list (nat * bool)) (e : event) : bool :=
  match e with E_call i c => negb (adds c) || match nth_error tags i with None => true | Some (_, ok) => ok end | _ => true end.
Lemma one_adds_cons tags e es : one_adds tags (e :: es) = true -> allowed tags e = true /\ one_adds (next_tags tags e) es = true.
Proof.
  destruct e as [x|i|i|i c]; cbn [one_adds allowed next_tags]; auto. destruct (adds c); cbn [negb orb]; auto.
  destruct (nth_error tags i) as [[f ok]|]; auto. apply andb_true_iff.
Qed.

Lemma nth_outdate i f tags j : nth_error (outdate i f tags) j = option_map (fun t => (fst t, snd t && (negb (Nat.eqb (fst t) f) || Nat.eqb j i))) (nth_error tags j).
Proof.
  unfold outdate. rewrite nth_error_map', nth_error_combine. destruct (nth_error tags j) as [t|] eqn:E; cbn [option_map].
  - rewrite nth_seq by (eapply nth_error_lt; eauto). reflexivity.
  - destruct (nth_error (seq 0 (length tags)) j); reflexivity.
Qed.
Lemma outdate_len i f tags : length (outdate i f tags) = length tags.
Proof. unfold outdate. rewrite map_length, combine_length, seq_length. lia. Qed.

Lemma nth_snoc {X} (l : list X) x i y : nth_error (l ++ [x]) i = Some y -> (i < length l /\ nth_error l i = Some y) \/ (i = length l /\ y = x).
Proof.
  intros E. destruct (Nat.lt_ge_cases i (length l)) as [L|L]; [left; split; auto; now rewrite nth_error_app1 in E|].
  rewrite nth_error_app2 in E by auto. right. destruct (i - length l) as [|k] eqn:D; cbn [nth_error] in E; [split; [lia | congruence]|]. destruct k; discriminate.
Qed.

(** a new model *)
Lemma inv_new tags w ms hp2 x y : Inv2 tags w ms -> length (w_heap w) <= length hp2 ->
  (forall a, a < length (w_heap w) -> nth_error hp2 a = nth_error (w_heap w) a) ->
  slot hp2 true x y -> (forall h a, x = Some h -> In a (hlinks h) -> length (w_heap w) <= a) ->
  Inv2 (tags ++ [(length tags, true)]) (mkW hp2 (w_models w ++ [x])) (ms ++ [y]).
Proof.
  intros [L1 L2 Fm Sl Ap] Lh Same Sx Fresh. constructor; cbn [w_heap w_models]; rewrite ?app_length; cbn [length]; auto.
  - intros i t E. apply nth_snoc in E. destruct E as [(Li & E)|(-> & ->)]; cbn [fst]; [apply Fm in E|]; lia.
  - intros i t x0 y0 Et Ex Ey. apply nth_snoc in Et, Ex, Ey.
    destruct Et as [(Lt & Et)|(Lt & ->)], Ex as [(Lx & Ex)|(Lx & ->)], Ey as [(Ly & Ey)|(Ly & ->)]; try (exfalso; lia).
    + specialize (Sl i t x0 y0 Et Ex Ey). destruct x0 as [h|], y0 as [m|]; auto. destruct Sl as (HS & Sh). split; auto.
      eapply sim_heap; eauto. intros a I. apply Same. eapply as_range'; eauto.
    + exact Sx.
  - assert (Old : forall i t h a, nth_error tags i = Some t -> nth_error (w_models w) i = Some (Some h) -> In a (hlinks h) -> a < length (w_heap w)).
    { intros i t h a Et Ex I. destruct (nth_error ms i) as [y0|] eqn:Ey.
      - specialize (Sl i t _ y0 Et Ex Ey). destruct y0 as [m|]; [|destruct Sl]. destruct Sl as (HS & _). eapply as_range'; eauto.
      - apply nth_error_None in Ey. pose proof (nth_error_lt _ _ _ Et). lia. }
    intros i j t u h k a Et Eu N Eh Ek Ih Ik. apply nth_snoc in Et, Eu, Eh, Ek.
    destruct Et as [(Lt & Et)|(Lt & ->)], Eh as [(Lx & Eh)|(Lx & Eh)]; try (exfalso; lia);
    destruct Eu as [(Lu & Eu)|(Lu & ->)], Ek as [(Ly & Ek)|(Ly & Ek)]; try (exfalso; lia).
    + eapply Ap; eauto.
    + pose proof (Old i t h a Et Eh Ih). symmetry in Ek. pose proof (Fresh k a Ek Ik). lia.
    + pose proof (Old j u k a Eu Ek Ik). symmetry in Eh. pose proof (Fresh h a Eh Ih). lia.
Qed.

(** a copy *)
Lemma nth_def {X} (l : list X) i d x : nth_error l i = Some x -> nth i l d = x.
Proof. intros E. now apply nth_error_nth. Qed.
Lemma inv_copy tags w ms i : Inv2 tags w ms ->
  Inv2 (tags ++ [nth i tags (length tags, true)]) (mkW (w_heap w) (w_models w ++ [model_at (w_models w) i])) (ms ++ [model_at ms i]).
Proof.
  intros [L1 L2 Fm Sl Ap].
  destruct (nth_error tags i) as [t0|] eqn:E0.
  2:{ apply nth_error_None in E0. rewrite nth_overflow by auto. unfold model_at.
      rewrite !(proj2 (nth_error_None _ i)) by lia. apply inv_new; auto; [constructor; auto | exact I | discriminate]. }
  rewrite (nth_def _ _ _ _ E0). pose proof (nth_error_lt _ _ _ E0) as Li.
  destruct (nth_error (w_models w) i) as [x0|] eqn:Ex0; [|apply nth_error_None in Ex0; lia]. destruct (nth_error ms i) as [y0|] eqn:Ey0; [|apply nth_error_None in Ey0; lia].
  assert (M1 : model_at (w_models w) i = x0) by (unfold model_at; rewrite Ex0; now destruct x0). assert (M2 : model_at ms i = y0) by (unfold model_at; rewrite Ey0; now destruct y0).
  rewrite M1, M2. constructor; cbn [w_heap w_models]; rewrite ?app_length; cbn [length]; auto.
  - intros j t E. apply nth_snoc in E. destruct E as [(Lj & E)|(-> & ->)]; apply Fm in E || apply Fm in E0; lia.
  - intros j t x y Et Ex Ey. apply nth_snoc in Et, Ex, Ey.
    destruct Et as [(Lt & Et)|(Lt & ->)], Ex as [(Lx & Ex)|(Lx & ->)], Ey as [(Ly & Ey)|(Ly & ->)]; try (exfalso; lia); eauto.
  - intros j k t u h g a Et Eu N Eh Ek Ih Ik. apply nth_snoc in Et, Eu, Eh, Ek.
    destruct Et as [(Lt & Et)|(Lt & ->)], Eh as [(Lx & Eh)|(Lx & Eh)]; try (exfalso; lia);
    destruct Eu as [(Lu & Eu)|(Lu & ->)], Ek as [(Ly & Ek)|(Ly & Ek)]; try (exfalso; lia).
    + eapply Ap; eauto.
    + eapply Ap with (i := j) (j := i); eauto; congruence.
    + rewrite <- Eh in Ex0. eapply Ap with (i := i) (j := k); eauto.
Qed.

(** a delete *)
Lemma inv_delete tags w ms i : Inv2 tags w ms ->
  Inv2 tags (mkW (sweep (length (w_heap w)) (list_set (w_models w) i None) (w_heap w)) (list_set (w_models w) i None)) (list_set ms i None).
Proof.
  intros [L1 L2 Fm Sl Ap].
  assert (B : forall {X} (l : list (option X)) j x, nth_error (list_set l i None) j = Some (Some x) -> nth_error l j = Some (Some x)).
  { intros X l j x E. rewrite nth_error_list_set in E. destruct (Nat.eqb_spec i j); auto. destruct (i <? length l); discriminate. }
  constructor; cbn [w_heap w_models]; rewrite ?list_set_length; auto.
  - intros j t x y Et Ex Ey. pose proof Ex as Ex1. rewrite nth_error_list_set in Ex. rewrite nth_error_list_set in Ey. destruct (Nat.eqb_spec i j) as [->|Nj].
    + destruct (j <? length (w_models w)); [|discriminate]. destruct (j <? length ms); [|discriminate]. injection Ex as <-. injection Ey as <-. exact I.
    + specialize (Sl j t x y Et Ex Ey). destruct x as [h|], y as [m|]; auto. destruct Sl as (HS & Sh). split; auto. eapply sim_heap; eauto.
      intros a Ia. eapply sweep_keeps; eauto.
  - intros j k t u h g a Et Eu N Eh Ek. apply B in Eh, Ek. eauto.
Qed.

(** a call that only reads the heap *)
Lemma inv_read tags w ms i h m h' m' t : Inv2 tags w ms -> nth_error tags i = Some t -> nth_error (w_models w) i = Some (Some h) -> nth_error ms i = Some (Some m) ->
  Sim (snd t) (w_heap w) (hlinks h) h' m' -> Shape m' -> Inv2 tags (mkW (w_heap w) (list_set (w_models w) i (Some h'))) (list_set ms i (Some m')).
Proof.
  intros [L1 L2 Fm Sl Ap] Et Eh Em HS Sh. pose proof (s_as _ _ _ _ _ HS) as Ea.
  assert (B : forall j k, nth_error (list_set (w_models w) i (Some h')) j = Some (Some k) -> exists k', nth_error (w_models w) j = Some (Some k') /\ hlinks k = hlinks k').
  { intros j k E. rewrite nth_error_list_set in E. destruct (Nat.eqb_spec i j) as [<-|]; [|eauto]. destruct (i <? length (w_models w)); [|discriminate]. injection E as <-. eauto. }
  constructor; cbn [w_heap w_models]; rewrite ?list_set_length; auto.
  - intros j u x y Eu Ex Ey. rewrite nth_error_list_set in Ex. rewrite nth_error_list_set in Ey. destruct (Nat.eqb_spec i j) as [<-|Nj]; [|eauto].
    destruct (i <? length (w_models w)); [|discriminate]. destruct (i <? length ms); [|discriminate]. injection Ex as <-. injection Ey as <-.
    rewrite Et in Eu. injection Eu as <-. cbn [slot]. rewrite Ea. auto.
  - intros j k u v h1 g a Eu Ev N Eh1 Eg I1 I2. apply B in Eh1, Eg. destruct Eh1 as (h2 & Eh2 & R1), Eg as (g2 & Eg2 & R2). rewrite R1 in I1. rewrite R2 in I2. eapply Ap with (i := j) (j := k); eauto.
Qed.

(** a call that adds a link *)
Lemma inv_add tags w ms i h m f hp2 h2 m2 as2 : Inv2 tags w ms -> nth_error tags i = Some (f, true) -> nth_error (w_models w) i = Some (Some h) -> nth_error ms i = Some (Some m) ->
  Sim true hp2 as2 h2 m2 -> Shape m2 -> frame (hlinks h) as2 (w_heap w) hp2 -> skeleton (w_heap w) hp2 ->
  Inv2 (outdate i f tags) (mkW hp2 (list_set (w_models w) i (Some h2))) (list_set ms i (Some m2)).
Proof.
  intros [L1 L2 Fm Sl Ap] Et Eh Em HS Sh Fr Sk. pose proof (s_as _ _ _ _ _ HS) as Ea. subst as2.
  assert (Rg : forall j u g a, nth_error tags j = Some u -> nth_error (w_models w) j = Some (Some g) -> In a (hlinks g) -> a < length (w_heap w)).
  { intros j u g a Eu Eg I. destruct (nth_error ms j) as [y|] eqn:Ey; [|apply nth_error_None in Ey; pose proof (nth_error_lt _ _ _ Eu); lia].
    specialize (Sl j u _ y Eu Eg Ey). destruct y as [n|]; [|destruct Sl]. eapply as_range'; [apply Sl | auto]. }
  assert (T : forall j u, nth_error (outdate i f tags) j = Some u -> exists u0, nth_error tags j = Some u0 /\ fst u = fst u0 /\ snd u = snd u0 && (negb (Nat.eqb (fst u0) f) || Nat.eqb j i)).
  { intros j u E. rewrite nth_outdate in E. destruct (nth_error tags j) as [u0|]; [|discriminate]. injection E as <-. eauto. }
  constructor; cbn [w_heap w_models]; rewrite ?list_set_length, ?outdate_len; auto.
  - intros j u E. destruct (T j u E) as (u0 & E0 & -> & _). eauto.
  - intros j u x y Eu Ex Ey. destruct (T j u Eu) as (u0 & E0 & Ef & Es). rewrite nth_error_list_set in Ex. rewrite nth_error_list_set in Ey. destruct (Nat.eqb_spec i j) as [<-|Nj].
    + destruct (i <? length (w_models w)); [|discriminate]. destruct (i <? length ms); [|discriminate]. injection Ex as <-. injection Ey as <-.
      cbn [slot]. split; auto. rewrite Et in E0. injection E0 as <-. rewrite Es. cbn [snd]. rewrite !Nat.eqb_refl. exact HS.
    + specialize (Sl j u0 x y E0 Ex Ey). destruct x as [g|], y as [n|]; auto. destruct Sl as (HSj & Shj). cbn [slot]. split; auto. destruct (Nat.eqb_spec (fst u0) f) as [Ef0|Nf].
      * replace (snd u) with false; [eapply sim_skeleton; eauto|]. rewrite Es. cbn [negb orb]. destruct (Nat.eqb_spec j i); [congruence|]. now rewrite andb_false_r.
      * eapply sim_heap; [|exact HSj|]; [rewrite Es; intros X; now apply andb_true_iff in X|]. intros a I. apply (fr_out _ _ _ _ Fr); [eauto|].
        intros I2. eapply Ap with (i := i) (j := j); eauto.
  - assert (G : forall j u g a, j <> i -> nth_error tags j = Some u -> fst u <> f -> nth_error (w_models w) j = Some (Some g) -> In a (hlinks g) -> In a (hlinks h2) -> False).
    { intros j u g a Nj Eu Nu Eg I1 I2. apply (fr_new _ _ _ _ Fr) in I2. destruct I2 as [I2|I2].
      - eapply Ap with (i := i) (j := j); eauto.
      - pose proof (Rg j u g a Eu Eg I1). lia. }
    intros j k u v g1 g2 a Eu Ev N E1 E2 I1 I2. destruct (T j u Eu) as (u0 & Eu0 & Fu & _), (T k v Ev) as (v0 & Ev0 & Fv & _). rewrite Fu, Fv in N.
    rewrite nth_error_list_set in E1. rewrite nth_error_list_set in E2. destruct (Nat.eqb_spec i j) as [<-|Nj], (Nat.eqb_spec i k) as [<-|Nk].
    + congruence.
    + destruct (i <? length (w_models w)); [|discriminate]. injection E1 as <-. rewrite Et in Eu0. injection Eu0 as <-. cbn [fst] in N. eapply (G k); eauto.
    + destruct (i <? length (w_models w)); [|discriminate]. injection E2 as <-. rewrite Et in Ev0. injection Ev0 as <-. cbn [fst] in N. eapply (G j); eauto.
    + eapply Ap with (i := j) (j := k); eauto.
Qed.

Definition goes {B} (r : res B) : bool := match r with Ok _ | Throw _ => true | _ => false end.

Lemma adding_giving {B} (f : B -> reply) (g : M HS B) s : fst (giving f g s) = fst (g s) /\ snd (giving f g s) = rbind (snd (g s)) (fun b => Ok (f b)).
Proof. unfold giving, bind. destruct (g s) as [s1 [b|x|u|]]; split; reflexivity. Qed.
Lemma adding_giving' {B} (f : B -> reply) (g : M KM B) s : fst (giving f g s) = fst (g s) /\ snd (giving f g s) = rbind (snd (g s)) (fun b => Ok (f b)).
Proof. unfold giving, bind. destruct (g s) as [s1 [b|x|u|]]; split; reflexivity. Qed.

Lemma call_adds c hp h m : adds c = true -> Sim true hp (hlinks h) h m -> Shape m ->
  snd (h_call c (hp, h)) = snd (call_alone c m) /\
  (goes (snd (call_alone c m)) = true -> exists as2, Sim true (fst (fst (h_call c (hp, h)))) as2 (snd (fst (h_call c (hp, h)))) (fst (call_alone c m)) /\
     Shape (fst (call_alone c m)) /\ frame (hlinks h) as2 hp (fst (fst (h_call c (hp, h)))) /\ skeleton hp (fst (fst (h_call c (hp, h))))).
Proof.
  intros Ac HS Sh. destruct c; try discriminate; cbn [h_call call_alone].
  - destruct (add_both_rpy hp _ h m name parent_id pos rpy HS Sh) as (E & Af).
    destruct (adding_giving R_link (h_add_new_link name parent_id pos rpy) (hp, h)) as (-> & ->). destruct (adding_giving' R_link (add_new_link name parent_id pos rpy) m) as (-> & ->).
    rewrite E. split; auto. destruct (snd (add_new_link name parent_id pos rpy m)); cbn [rbind goes after_add] in *; intros G; try discriminate; exact Af.
  - destruct (add_both hp _ h m name parent_id pose HS Sh) as (E & Af).
    destruct (adding_giving R_link (h_add_new_link_pose name parent_id pose) (hp, h)) as (-> & ->). destruct (adding_giving' R_link (add_new_link_pose name parent_id pose) m) as (-> & ->).
    rewrite E. split; auto. destruct (snd (add_new_link_pose name parent_id pose m)); cbn [rbind goes after_add] in *; intros G; try discriminate; exact Af.
Qed.

Lemma inv_outdate tags w ms i f : Inv2 tags w ms -> Inv2 (outdate i f tags) w ms.
Proof.
  intros [L1 L2 Fm Sl Ap].
  assert (T : forall j u, nth_error (outdate i f tags) j = Some u -> exists u0, nth_error tags j = Some u0 /\ fst u = fst u0 /\ (snd u = true -> snd u0 = true)).
  { intros j u E. rewrite nth_outdate in E. destruct (nth_error tags j) as [u0|]; [|discriminate]. injection E as <-. exists u0. repeat split; auto. cbn [snd]. intros X. now apply andb_true_iff in X. }
  constructor; rewrite ?outdate_len; auto.
  - intros j u E. destruct (T j u E) as (u0 & E0 & -> & _). eauto.
  - intros j u x y E Ex Ey. destruct (T j u E) as (u0 & E0 & _ & Es). specialize (Sl j u0 x y E0 Ex Ey). destruct x as [h|], y as [m|]; auto. destruct Sl as (HS & Sh). split; auto.
    eapply sim_heap; eauto.
  - intros j k u v h g a Eu Ev N. destruct (T j u Eu) as (u0 & Eu0 & Fu & _), (T k v Ev) as (v0 & Ev0 & Fv & _). rewrite Fu, Fv in N. eauto.
Qed.

Lemma step_both2 tags w ms e : Inv2 tags w ms -> allowed tags e = true ->
  snd (h_step tinyxml e w) = snd (step_alone tinyxml e ms) /\
  (goes (snd (step_alone tinyxml e ms)) = true -> Inv2 (next_tags tags e) (fst (h_step tinyxml e w)) (fst (step_alone tinyxml e ms))).
Proof.
  intros V Al. destruct e as [text|i|i|i c]; cbn [h_step step_alone next_tags].
  - pose proof (ctor_both tinyxml text (w_heap w)) as H. destruct (h_ctor tinyxml text (w_heap w)) as [hp2 r']. destruct (ctor tinyxml text) as [m|x|u|], r' as [h|x'|u'|]; try contradiction.
    + destruct H as (as2 & HS & Sh & Fr). split; [reflexivity|]. intros _. cbn [fst]. pose proof (s_as _ _ _ _ _ HS) as Ea. subst as2. apply inv_new; auto.
      * apply Fr.
      * intros a L. apply (fr_out _ _ _ _ Fr); auto.
      * split; auto.
      * intros h0 a E I. injection E as <-. apply (fr_new _ _ _ _ Fr) in I. destruct I as [[]|I]; auto.
    + destruct H as (-> & ->). split; [reflexivity|]. intros _. cbn [fst]. apply inv_new; auto; [exact I | discriminate].
    + destruct H as (-> & ->). split; [reflexivity | discriminate].
    + split; [reflexivity | discriminate].
  - split; [reflexivity|]. intros _. now apply inv_copy.
  - split; [reflexivity|]. intros _. now apply inv_delete.
  - unfold model_at. pose proof V as [L1 L2 Fm Sl Ap]. destruct (nth_error tags i) as [t|] eqn:Et.
    2:{ apply nth_error_None in Et. rewrite !(proj2 (nth_error_None _ i)) by lia. split; [reflexivity|]. intros _. cbn [fst]. destruct (adds c); auto. }
    pose proof (nth_error_lt _ _ _ Et) as Li.
    destruct (nth_error (w_models w) i) as [x|] eqn:Ex; [|apply nth_error_None in Ex; lia]. destruct (nth_error ms i) as [y|] eqn:Ey; [|apply nth_error_None in Ey; lia].
    pose proof (Sl i t x y Et Ex Ey) as S1. destruct x as [h|], y as [m|]; try contradiction.
    2:{ split; [reflexivity|]. intros _. cbn [fst]. destruct (adds c); auto. destruct t as [f ok]. now apply inv_outdate. }
    destruct S1 as (HS & Sh). destruct (adds c) eqn:Ac.
    + destruct t as [f ok]. cbn [allowed] in Al. rewrite Ac, Et in Al. cbn [negb orb] in Al. subst ok. cbn [snd] in HS.
      destruct (call_adds c (w_heap w) h m Ac HS Sh) as (E & G). destruct (h_call c (w_heap w, h)) as [[hp2 h2] r'], (call_alone c m) as [m2 r]. cbn [fst snd] in *. subst r'. split; [reflexivity|].
      intros Go. destruct (G Go) as (as2 & HS2 & Sh2 & Fr & Sk). eapply inv_add; eauto.
    + destruct (call_reads (snd t) (w_heap w) (hlinks h) c h m) as (h2 & E1 & E2 & HS2 & K); [unfold reads; now rewrite Ac | exact HS|].
      destruct (h_call c (w_heap w, h)) as [[hp2 h2'] r'], (call_alone c m) as [m2 r]. cbn [fst snd] in *. injection E1 as -> ->. subst r'. split; [reflexivity|]. intros _.
      eapply inv_read; eauto. destruct K as (K1 & K2 & K3 & K4). destruct (shape_ext m m2 Sh) as (X & _); auto. now rewrite K1.
Qed.

Lemma run_both es : forall tags w ms, Inv2 tags w ms -> one_adds tags es = true ->
  snd (h_run tinyxml es w) = snd (run_alone tinyxml es ms).
Proof.
  induction es as [|e es IH]; intros tags w ms V O; [reflexivity|]. apply one_adds_cons in O. destruct O as (Al & O). destruct (step_both2 tags w ms e V Al) as (E & G).
  cbn [h_run run_alone]. destruct (h_step tinyxml e w) as [w' r'], (step_alone tinyxml e ms) as [ms' r]. cbn [fst snd] in *. subst r'.
  destruct r as [b|x|u|]; try reflexivity; specialize (IH _ _ _ (G eq_refl) O);
    destruct (h_run tinyxml es w') as [w2 rs'], (run_alone tinyxml es ms') as [ms2 rs]; cbn [fst snd] in *; now rewrite IH.
Qed.
Lemma inv_empty : Inv2 [] empty_world [].
Proof.
  constructor; auto; try (intros [|i]; discriminate).
Qed.

(** without copies every model may add *)
Lemma no_copy_adds es : forall tags, (forall i t, nth_error tags i = Some t -> t = (i, true)) -> forallb (fun e => negb (copies e)) es = true -> one_adds tags es = true.
Proof.
  induction es as [|e es IH]; intros tags H N; [reflexivity|]. cbn [forallb] in N. apply andb_true_iff in N. destruct N as (Ne & N). destruct e as [x|i|i|i c]; cbn [one_adds]; auto.
  - apply IH; auto. intros j t E. apply nth_snoc in E. destruct E as [(_ & E)|(-> & ->)]; auto.
  - discriminate.
  - destruct (adds c); auto. destruct (nth_error tags i) as [[f ok]|] eqn:E; auto. apply H in E. injection E as -> ->. cbn [andb]. apply IH; auto.
    intros j t E. rewrite nth_outdate in E. destruct (nth_error tags j) as [t0|] eqn:E0; [|discriminate]. apply H in E0. subst t0. cbn [option_map fst snd] in E. injection E as <-.
    f_equal. cbn [andb]. destruct (Nat.eqb j i); reflexivity.
Qed.

End PfHeap3.
