(** Lemmas about the vocabulary of Base.v. *)
From Coq Require Import String List Arith Lia Bool.
From Verif Require Import Base.
Import ListNotations.

Lemma vget_ok {A} (v : list A) i a : vget v i = Ok a <-> nth_error v i = Some a.
Proof. unfold vget. destruct (nth_error v i); split; intros E; inversion E; reflexivity. Qed.

Lemma vget_lt {A} (v : list A) i : i < length v -> exists a, vget v i = Ok a /\ nth_error v i = Some a.
Proof.
  intros L. destruct (nth_error v i) as [a|] eqn:E.
  - exists a. unfold vget. rewrite E. auto.
  - apply nth_error_None in E. lia.
Qed.

Lemma vget_ub {A} (v : list A) i : length v <= i -> vget v i = UB OutOfBounds.
Proof. intros L. unfold vget. apply nth_error_None in L. now rewrite L. Qed.

Lemma vget_cases {A} (v : list A) i :
  (exists a, vget v i = Ok a /\ nth_error v i = Some a /\ i < length v) \/ (vget v i = UB OutOfBounds /\ length v <= i).
Proof.
  destruct (Nat.lt_ge_cases i (length v)) as [L|L].
  - left. destruct (vget_lt v i L) as (a & E1 & E2). eauto.
  - right. split; [now apply vget_ub | exact L].
Qed.

Lemma nth_error_lt {A} (v : list A) i a : nth_error v i = Some a -> i < length v.
Proof. intros E. apply nth_error_Some. congruence. Qed.

Lemma lt_nth_error {A} (v : list A) i : i < length v -> exists a, nth_error v i = Some a.
Proof. intros L. destruct (vget_lt v i L) as (a & _ & E). eauto. Qed.

Lemma list_set_length {A} (v : list A) i a : length (list_set v i a) = length v.
Proof. revert i; induction v as [|x v IH]; intros [|i]; simpl; auto. Qed.

Lemma nth_error_list_set {A} (v : list A) i k a :
  nth_error (list_set v i a) k = if Nat.eqb i k then (if Nat.ltb i (length v) then Some a else None) else nth_error v k.
Proof.
  revert i k; induction v as [|x v IH]; intros i k.
  - simpl. destruct i, k; simpl; auto. destruct (Nat.eqb i k); auto.
  - destruct i, k; simpl; auto. rewrite IH. destruct (Nat.eqb i k); auto.
Qed.

Lemma nth_error_list_set_eq {A} (v : list A) i a : i < length v -> nth_error (list_set v i a) i = Some a.
Proof. intros L. rewrite nth_error_list_set, Nat.eqb_refl. apply Nat.ltb_lt in L. now rewrite L. Qed.

Lemma nth_error_list_set_ne {A} (v : list A) i k a : i <> k -> nth_error (list_set v i a) k = nth_error v k.
Proof. intros N. rewrite nth_error_list_set. apply Nat.eqb_neq in N. now rewrite N. Qed.

Lemma vset_ok {A} (v : list A) i a v' : vset v i a = Ok v' <-> i < length v /\ v' = list_set v i a.
Proof.
  unfold vset. destruct (Nat.ltb_spec i (length v)); split.
  - intros E; inversion E; auto.
  - intros [_ ->]; auto.
  - discriminate.
  - intros [? _]; lia.
Qed.

Lemma vset_lt {A} (v : list A) i a : i < length v -> vset v i a = Ok (list_set v i a).
Proof. intros L. apply vset_ok. auto. Qed.

Lemma vset_ub {A} (v : list A) i a : length v <= i -> vset v i a = UB OutOfBounds.
Proof. intros L. unfold vset. apply Nat.ltb_ge in L. now rewrite L. Qed.

Lemma list_set_app_l {A} (v w : list A) i a : i < length v -> list_set (v ++ w) i a = list_set v i a ++ w.
Proof.
  revert i; induction v as [|x v IH]; intros i L; simpl in L; [lia|].
  destruct i; simpl; auto. now rewrite IH by lia.
Qed.

Lemma list_set_app_r {A} (v w : list A) i a : list_set (v ++ w) (length v + i) a = v ++ list_set w i a.
Proof. induction v as [|x v IH]; simpl; auto. now rewrite IH. Qed.

Lemma list_set_same {A} (v : list A) i a : nth_error v i = Some a -> list_set v i a = v.
Proof.
  revert i; induction v as [|x v IH]; intros [|i]; simpl; intros E; try discriminate.
  - now inversion E.
  - now rewrite IH.
Qed.

Lemma list_set_twice {A} (v : list A) i a b : list_set (list_set v i a) i b = list_set v i b.
Proof. revert i; induction v as [|x v IH]; intros [|i]; simpl; auto. now rewrite IH. Qed.

Lemma map_list_set {A B} (f : A -> B) (v : list A) i a : map f (list_set v i a) = list_set (map f v) i (f a).
Proof. revert i; induction v as [|x v IH]; intros [|i]; simpl; auto. now rewrite IH. Qed.

Lemma nth_error_map' {A B} (f : A -> B) (l : list A) i : nth_error (map f l) i = option_map f (nth_error l i).
Proof. revert i; induction l as [|x l IH]; intros [|i]; simpl; auto. Qed.

Lemma nth_error_seq a n i : i < n -> nth_error (seq a n) i = Some (a + i).
Proof.
  revert a i; induction n as [|n IH]; intros a i L; [lia|].
  destruct i; simpl. - now rewrite Nat.add_0_r. - rewrite IH by lia. f_equal; lia.
Qed.

Lemma nth_error_combine {A B} (l : list A) (l' : list B) i :
  nth_error (combine l l') i = match nth_error l i, nth_error l' i with Some a, Some b => Some (a, b) | _, _ => None end.
Proof.
  revert l' i; induction l as [|x l IH]; intros [|y l'] [|i]; simpl; auto.
  - destruct (nth_error l i); auto.
Qed.

Lemma nth_error_repeat' {A} (a : A) n i : nth_error (repeat a n) i = if Nat.ltb i n then Some a else None.
Proof.
  revert i; induction n as [|n IH]; intros [|i]; simpl; auto. rewrite IH.
  destruct (Nat.ltb_spec i n), (Nat.ltb_spec (S i) (S n)); auto; lia.
Qed.

(** The state monad. *)
Lemma bind_ok {S A B} (x : M S A) (f : A -> M S B) s s' a : x s = (s', Ok a) -> bind x f s = f a s'.
Proof. intros E. unfold bind. now rewrite E. Qed.

Lemma bind_inv_ok {S A B} (x : M S A) (f : A -> M S B) s s' b :
  bind x f s = (s', Ok b) -> exists s1 a, x s = (s1, Ok a) /\ f a s1 = (s', Ok b).
Proof.
  unfold bind. destruct (x s) as [s1 [a|e|u|]]; intros E; try (inversion E; fail). eauto.
Qed.

Lemma bind_lift_ok {S A B} (r : res A) a (f : A -> M S B) s : r = Ok a -> bind (lift r) f s = f a s.
Proof. intros ->. reflexivity. Qed.

Lemma bind_get {S B} (f : S -> M S B) s : bind get f s = f s s.
Proof. reflexivity. Qed.

Lemma bind_ret {S A B} (a : A) (f : A -> M S B) s : bind (ret a) f s = f a s.
Proof. reflexivity. Qed.

Lemma bind_put {S B} (s0 : S) (f : unit -> M S B) s : bind (put s0) f s = f tt s0.
Proof. reflexivity. Qed.

Lemma bind_assoc {S A B C} (x : M S A) (f : A -> M S B) (g : B -> M S C) s :
  bind (bind x f) g s = bind x (fun a => bind (f a) g) s.
Proof. unfold bind. destruct (x s) as [s1 [a|e|u|]]; auto. Qed.

(** Loop rules. *)
Lemma for_each_nil {S A B} (acc : B) (body : A -> B -> M S B) s : for_each [] acc body s = (s, Ok acc).
Proof. reflexivity. Qed.

Lemma for_each_cons {S A B} a (l : list A) (acc : B) (body : A -> B -> M S B) s :
  for_each (a :: l) acc body s = bind (body a acc) (fun acc' => for_each l acc' body) s.
Proof. reflexivity. Qed.

Lemma for_each_app {S A B} (l1 l2 : list A) (acc : B) (body : A -> B -> M S B) s :
  for_each (l1 ++ l2) acc body s = bind (for_each l1 acc body) (fun acc' => for_each l2 acc' body) s.
Proof.
  revert acc s; induction l1 as [|a l1 IH]; intros acc s; simpl.
  - reflexivity.
  - unfold bind in *. destruct (body a acc s) as [s1 [b|e|u|]]; auto.
Qed.

(** Partial-correctness rule: an invariant on state, accumulator and processed prefix. *)
Lemma for_each_inv {S A B} (I : list A -> S -> B -> Prop) (body : A -> B -> M S B) (l : list A) :
  forall pre acc s s' acc',
  I pre s acc ->
  (forall pre a s acc s1 acc1, In a l -> I pre s acc -> body a acc s = (s1, Ok acc1) -> I (pre ++ [a]) s1 acc1) ->
  for_each l acc body s = (s', Ok acc') -> I (pre ++ l) s' acc'.
Proof.
  induction l as [|a l IH]; intros pre acc s s' acc' H0 Hstep E.
  - inversion E; subst. now rewrite app_nil_r.
  - simpl in E. apply bind_inv_ok in E. destruct E as (s1 & b & E1 & E2).
    replace (pre ++ a :: l) with ((pre ++ [a]) ++ l) by (now rewrite <- app_assoc).
    eapply IH; eauto.
    + eapply Hstep; eauto. now left.
    + intros; eapply Hstep; eauto. now right.
Qed.

(** Total-correctness rule. *)
Lemma for_each_total {S A B} (I : list A -> S -> B -> Prop) (body : A -> B -> M S B) (l : list A) :
  forall pre acc s,
  I pre s acc ->
  (forall pre' a post s acc, pre' ++ a :: post = pre ++ l -> length pre <= length pre' -> I pre' s acc ->
     exists s1 acc1, body a acc s = (s1, Ok acc1) /\ I (pre' ++ [a]) s1 acc1) ->
  exists s' acc', for_each l acc body s = (s', Ok acc') /\ I (pre ++ l) s' acc'.
Proof.
  induction l as [|a l IH]; intros pre acc s H0 Hstep.
  - exists s, acc. rewrite app_nil_r. split; auto.
  - destruct (Hstep pre a l s acc eq_refl (le_n _) H0) as (s1 & acc1 & E1 & H1).
    destruct (IH (pre ++ [a]) acc1 s1 H1) as (s' & acc' & E2 & H2).
    + intros pre' b post s2 acc2 Eq L H'. eapply Hstep; eauto.
      * rewrite Eq, <- app_assoc. reflexivity.
      * rewrite app_length in L. simpl in L. lia.
    + exists s', acc'. split.
      * simpl. unfold bind. rewrite E1. exact E2.
      * rewrite <- app_assoc in H2. exact H2.
Qed.

Lemma rbind_ok {A B} (x : res A) (f : A -> res B) b :
  rbind x f = Ok b <-> exists a, x = Ok a /\ f a = Ok b.
Proof.
  destruct x; simpl; split.
  - intros E; eauto.
  - intros (a' & E & E'). now inversion E; subst.
  - discriminate. - intros (? & E & _); discriminate.
  - discriminate. - intros (? & E & _); discriminate.
  - discriminate. - intros (? & E & _); discriminate.
Qed.

Lemma rfor_app {A B} (l1 l2 : list A) (acc : B) body :
  rfor (l1 ++ l2) acc body = rbind (rfor l1 acc body) (fun acc' => rfor l2 acc' body).
Proof.
  revert acc; induction l1 as [|a l1 IH]; intros acc; simpl; auto.
  destruct (body a acc); simpl; auto.
Qed.

Lemma rfor_total {A B} (I : list A -> B -> Prop) (body : A -> B -> res B) (l : list A) :
  forall pre acc,
  I pre acc ->
  (forall pre' a post acc, pre' ++ a :: post = pre ++ l -> length pre <= length pre' -> I pre' acc ->
     exists acc1, body a acc = Ok acc1 /\ I (pre' ++ [a]) acc1) ->
  exists acc', rfor l acc body = Ok acc' /\ I (pre ++ l) acc'.
Proof.
  induction l as [|a l IH]; intros pre acc H0 Hstep.
  - exists acc. rewrite app_nil_r. split; auto.
  - destruct (Hstep pre a l acc eq_refl (le_n _) H0) as (acc1 & E1 & H1).
    destruct (IH (pre ++ [a]) acc1 H1) as (acc' & E2 & H2).
    + intros pre' b post acc2 Eq L H'. eapply Hstep; eauto.
      * rewrite Eq, <- app_assoc. reflexivity.
      * rewrite app_length in L. simpl in L. lia.
    + exists acc'. split.
      * simpl. rewrite E1. exact E2.
      * rewrite <- app_assoc in H2. exact H2.
Qed.

Lemma rfor_inv {A B} (I : list A -> B -> Prop) (body : A -> B -> res B) (l : list A) :
  forall pre acc acc',
  I pre acc ->
  (forall pre a acc acc1, In a l -> I pre acc -> body a acc = Ok acc1 -> I (pre ++ [a]) acc1) ->
  rfor l acc body = Ok acc' -> I (pre ++ l) acc'.
Proof.
  induction l as [|a l IH]; intros pre acc acc' H0 Hstep E.
  - inversion E; subst. now rewrite app_nil_r.
  - simpl in E. apply rbind_ok in E. destruct E as (b & E1 & E2).
    replace (pre ++ a :: l) with ((pre ++ [a]) ++ l) by (now rewrite <- app_assoc).
    eapply IH; eauto.
    + eapply Hstep; eauto. now left.
    + intros; eapply Hstep; eauto. now right.
Qed.

(** Association lists. *)
Lemma assoc_in {A} k (l : list (string * A)) a : assoc k l = Some a -> In (k, a) l.
Proof.
  induction l as [|[k' a'] l IH]; simpl; intros E; [discriminate|].
  destruct (String.eqb_spec k k'); [inversion E; subst; auto | auto].
Qed.

Lemma assoc_none {A} k (l : list (string * A)) : assoc k l = None <-> ~ In k (map fst l).
Proof.
  induction l as [|[k' a'] l IH]; simpl; [intuition|].
  destruct (String.eqb_spec k k').
  - split; [discriminate | intros N; exfalso; apply N; auto].
  - rewrite IH. intuition.
Qed.

Lemma assoc_nodup {A} k (l : list (string * A)) a :
  NoDup (map fst l) -> In (k, a) l -> assoc k l = Some a.
Proof.
  induction l as [|[k' a'] l IH]; simpl; intros N I; [easy|].
  inversion N; subst. destruct I as [I|I].
  - inversion I; subst. now rewrite String.eqb_refl.
  - destruct (String.eqb_spec k k'); auto. subst. exfalso. apply H1. apply in_map_iff. exists (k', a); auto.
Qed.

Lemma assoc_app {A} k (l1 l2 : list (string * A)) :
  assoc k (l1 ++ l2) = match assoc k l1 with Some a => Some a | None => assoc k l2 end.
Proof.
  induction l1 as [|[k' a'] l1 IH]; simpl; auto. destruct (String.eqb k k'); auto.
Qed.

(** loop2 *)
Lemma loop2_inr {S R} k (step : S -> S + R) s r : loop2 k step s = inr r -> forall k', k <= k' -> loop2 k' step s = inr r.
Proof.
  intros E k' L. induction L; auto. simpl. now rewrite IHL.
Qed.

(** n iterations at most *)
Fixpoint loopn {S R} (n : nat) (step : S -> S + R) (s : S) : S + R :=
  match n with
  | O => inl s
  | Datatypes.S n' => match step s with inl s' => loopn n' step s' | inr r => inr r end
  end.

Lemma loopn_add {S R} a b (step : S -> S + R) s :
  loopn (a + b) step s = match loopn a step s with inl s' => loopn b step s' | inr r => inr r end.
Proof.
  revert s; induction a as [|a IH]; intros s; simpl; auto.
  destruct (step s); auto.
Qed.

Lemma loop2_loopn {S R} k (step : S -> S + R) s : loop2 k step s = loopn (2 ^ k) step s.
Proof.
  revert s; induction k as [|k IH]; intros s.
  - simpl. destruct (step s); auto.
  - cbn [loop2]. rewrite Nat.pow_succ_r', (Nat.mul_comm 2), Nat.mul_succ_r, Nat.mul_1_r, loopn_add, <- IH.
    destruct (loop2 k step s); auto.
Qed.

Lemma loopn_mono {S R} n n' (step : S -> S + R) s r : loopn n step s = inr r -> n <= n' -> loopn n' step s = inr r.
Proof.
  intros E L. replace n' with (n + (n' - n)) by lia. now rewrite loopn_add, E.
Qed.
