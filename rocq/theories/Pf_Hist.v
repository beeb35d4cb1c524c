(** Concatenated histories. *)
From Coq Require Import String List Arith Lia Bool.
From Verif Require Import Base Num Pose DataStructure Urdf Kin Wrapper Spec_Robot Spec_Hist Spec_Load.
Import ListNotations.

Lemma run_app `{A : Arith} ops1 : forall ops2 m, run (ops1 ++ ops2) m = match run ops1 m with Some m' => run ops2 m' | None => None end.
Proof. induction ops1 as [|o ops1 IH]; intros ops2 m; simpl; auto. destruct (exec o m) as [m' [u|e|u|]]; auto. Qed.

Lemma reached_run `{A : Arith} tinyxml text R root sorted jsorted ops m ops2 m2 :
  reached tinyxml text R root sorted jsorted ops m -> run ops2 m = Some m2 ->
  reached tinyxml text R root sorted jsorted (ops ++ ops2) m2.
Proof.
  intros (L & O & m0 & E & Hr) H2. split; auto. split; auto. exists m0. split; auto. now rewrite run_app, Hr.
Qed.

Lemma abs_step_added `{A : Arith} names o s : exists extra, as_added (abs_step names o s) = as_added s ++ extra.
Proof.
  assert (W : forall jids wb qs s, as_added (fold_left (fun s q => at_waypoint jids wb q s) qs s) = as_added s).
  { intros jids wb qs. induction qs as [|q qs IH]; intros s'; simpl; auto. now rewrite IH. }
  destruct o; simpl; try (exists []; now rewrite app_nil_r).
  - destruct (Nat.eqb _ _); exists []; now rewrite app_nil_r.
  - destruct (existsb _ _); simpl; [exists []; now rewrite app_nil_r | eauto].
  - exists []. rewrite app_nil_r. destruct with_base, qs; try apply W. destruct (_ || _)%bool; auto; apply W.
Qed.
Lemma abs_run_added `{A : Arith} names ops : forall s, exists extra, as_added (abs_run names ops s) = as_added s ++ extra.
Proof.
  unfold abs_run. induction ops as [|o ops IH]; intros s; simpl; [exists []; now rewrite app_nil_r|].
  destruct (IH (abs_step names o s)) as (e2 & E2). destruct (abs_step_added names o s) as (e1 & E1).
  exists (e1 ++ e2). now rewrite E2, E1, app_assoc.
Qed.
Lemma after_app `{A : Arith} sorted jsorted ops ops2 : after sorted jsorted (ops ++ ops2) = abs_run (map fst sorted) ops2 (after sorted jsorted ops).
Proof. unfold after, abs_run. apply fold_left_app. Qed.

