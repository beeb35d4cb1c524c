(** Lemmas for Thm_Import.v. *)
From Coq Require Import String Ascii List Arith Lia Bool.
From Verif Require Import Base Import Pf_Base.
Import ListNotations.
Local Open Scope string_scope.

Notation slen := String.length.

Lemma app_nil_s (s : string) : s ++ "" = s.
Proof. induction s; cbn; congruence. Qed.
Lemma app_assoc_s (a b c : string) : (a ++ b) ++ c = a ++ (b ++ c).
Proof. induction a; cbn; congruence. Qed.
Lemma slen_app (a b : string) : slen (a ++ b) = slen a + slen b.
Proof. induction a; cbn; [|f_equal]; auto. Qed.

(** the first n characters *)
Lemma take_0 s : substring 0 0 s = "". Proof. destruct s; reflexivity. Qed.
Lemma take_all n s : slen s <= n -> substring 0 n s = s.
Proof.
  revert n. induction s as [|c s IH]; intros [|n] L; cbn in *; try reflexivity; [lia|].
  f_equal. apply IH. lia.
Qed.
Lemma take_split n k s : substring 0 (n + k) s = substring 0 n s ++ substring n k s.
Proof.
  revert n. induction s as [|c s IH]; intros [|n]; cbn; try (destruct k; reflexivity); try reflexivity.
  - f_equal. apply IH.
Qed.
Lemma take_len n s : n <= slen s -> slen (substring 0 n s) = n.
Proof. revert n. induction s as [|c s IH]; intros [|n] L; cbn in *; try reflexivity; [lia|]. f_equal. apply IH. lia. Qed.
Lemma sub_len n k s : n <= slen s -> slen (substring n k s) = Nat.min k (slen s - n).
Proof.
  revert n k. induction s as [|c s IH]; intros [|n] [|k] L; cbn in *; try reflexivity; try lia.
  - f_equal. specialize (IH 0 k). rewrite Nat.sub_0_r in IH. apply IH. lia.
  - specialize (IH n 0). cbn in IH. rewrite IH by lia. reflexivity.
  - specialize (IH n (S k)). cbn in IH. rewrite IH by lia. reflexivity.
Qed.
Lemma sub_beyond n k s : slen s <= n -> substring n k s = "".
Proof. revert n k. induction s as [|c s IH]; intros [|n] [|k] L; cbn in *; try reflexivity; try lia; apply IH; lia. Qed.
Lemma sub_clip n k s : n <= slen s -> substring n k s = substring n (Nat.min k (slen s - n)) s.
Proof.
  revert n k. induction s as [|c s IH]; intros [|n] [|k] L; cbn in *; try reflexivity; try lia.
  - f_equal. specialize (IH 0 k). rewrite Nat.sub_0_r in IH. apply IH. lia.
  - apply (IH n (S k)). lia.
Qed.

Lemma write_next n k s : n <= slen s ->
  write_at n (substring n k s) (substring 0 n s) = substring 0 (n + slen (substring n k s)) s.
Proof.
  intros L. pose proof (take_len n s L) as E. unfold write_at. rewrite E, Nat.sub_diag. cbn [zeros].
  rewrite (take_all n (substring 0 n s)) by lia.
  rewrite (sub_beyond (n + _)) by lia. cbn [append]. rewrite app_nil_s.
  rewrite sub_len by exact L. rewrite take_split. f_equal. apply sub_clip, L.
Qed.

(** ** The processes *)
Lemma set_nth {B} (l : list B) i p j : i < List.length l ->
  nth_error (list_set l i p) j = if Nat.eqb j i then Some p else nth_error l j.
Proof.
  revert i j. induction l as [|a l IH]; intros [|i] [|j] L; cbn in *; try lia; try reflexivity.
  apply IH. lia.
Qed.

Lemma nth_error_app_case {B} (l : list B) a i p : nth_error (l ++ [a])%list i = Some p -> nth_error l i = Some p \/ p = a.
Proof.
  intros H. destruct (Nat.lt_ge_cases i (List.length l)) as [L|L]; [rewrite nth_error_app1 in H by exact L; auto|].
  rewrite nth_error_app2 in H by exact L. destruct (i - List.length l) as [|[|]]; cbn in H; try discriminate H. injection H as <-. auto.
Qed.

Definition worker (p : ipc) : Prop :=
  match p with I_request _ | I_copy _ _ | I_done true => True | _ => False end.
Definition fits (T : Server) (p : ipc) (d : Disk) : Prop :=
  match p with
  | I_request Pr2 => d_pr2 d = None /\ d_fetch d = None
  | I_copy Pr2 n => n <= slen (T Pr2) /\ d_pr2 d = Some (substring 0 n (T Pr2)) /\ d_fetch d = None
  | I_request Fetch => d_pr2 d = Some (T Pr2) /\ d_fetch d = None
  | I_copy Fetch n => n <= slen (T Fetch) /\ d_pr2 d = Some (T Pr2) /\ d_fetch d = Some (substring 0 n (T Fetch))
  | I_done true => d_pr2 d = Some (T Pr2) /\ d_fetch d = Some (T Fetch)
  | _ => True
  end.
Definition pieces (T : Server) (d : Disk) : Prop :=
  forall r c, file d r = Some c -> exists n, c = substring 0 n (T r).

Definition inv (T : Server) (s : Disk * list ipc) : Prop :=
  (fst s = no_disk /\ forall i p, nth_error (snd s) i = Some p -> ~ worker p /\ p <> I_done false) \/
  (d_dir (fst s) = true /\ pieces T (fst s) /\
   (forall i j p q, nth_error (snd s) i = Some p -> nth_error (snd s) j = Some q -> worker p -> worker q -> i = j) /\
   (forall i p, nth_error (snd s) i = Some p -> worker p -> fits T p (fst s))).

Lemma fits_pieces T p d : worker p -> fits T p d -> pieces T d.
Proof.
  destruct p as [| |r|r n|b|]; cbn; try easy.
  - destruct r; intros _ [E F] [|] c; cbn; rewrite ?E, ?F; intros H; try discriminate H.
    injection H as <-. exists (slen (T Pr2)). symmetry. apply take_all. lia.
  - destruct r; intros _ (L & E & F) [|] c; cbn; rewrite ?E, ?F; intros H; try discriminate H; injection H as <-; eauto.
    exists (slen (T Pr2)). symmetry. apply take_all. lia.
  - destruct b; [|easy]. intros _ [E F] [|] c; cbn; rewrite ?E, ?F; intros H; injection H as <-; [exists (slen (T Pr2))|exists (slen (T Fetch))];
      symmetry; apply take_all; lia.
Qed.

(** a turn of a worker *)
Lemma worker_step T d p t : worker p -> fits T p d -> d_dir d = true ->
  let (d', p') := istep T d p t in
  d_dir d' = true /\ pieces T d' /\ (worker p' -> fits T p' d').
Proof.
  intros Wp F D. pose proof (fits_pieces T p d Wp F) as PP.
  destruct t as [k|]; [|destruct p as [| |r|r n|[]|]; cbn in Wp; try easy; cbn; auto].
  destruct p as [| |r|r n|[]|]; cbn in Wp; try easy; cbn [istep].
  - assert (K : fits T (I_copy r 0) (set_file r (Some "") d)).
    { destruct r; cbn in *; destruct F as [E F]; rewrite ?E, ?F, take_0; repeat split; auto; lia. }
    split; [destruct r; exact D|]. split; [apply (fits_pieces T (I_copy r 0)); [exact I|exact K]|auto].
  - destruct (Nat.ltb_spec n (slen (T r))) as [L|L].
    + set (b := substring n (S k) (T r)).
      assert (K : fits T (I_copy r (n + slen b)) (set_file r (option_map (write_at n b) (file d r)) d)).
      { assert (Lb : slen b = Nat.min (S k) (slen (T r) - n)) by (apply sub_len; lia).
        destruct r; cbn [fits set_file d_pr2 d_fetch file] in *; destruct F as (L0 & E & F); rewrite ?E, ?F; cbn [option_map];
          (split; [lia|]); unfold b; rewrite write_next by exact L0; auto. }
      split; [destruct r; exact D|]. split; [eapply fits_pieces; [|exact K]; exact I|auto].
    + split; [exact D|]. split; [exact PP|]. intros _.
      destruct r; cbn in *; destruct F as (L0 & E & F); rewrite E, ?F; rewrite take_all by exact L; auto.
Qed.

Lemma idle_step T d p t : ~ worker p ->
  let (d', p') := istep T d p t in
  (d' = d /\ ~ worker p') \/ (p = I_mkdir /\ d_dir d = false /\ d' = mkDisk true (d_pr2 d) (d_fetch d) /\ p' = I_request Pr2).
Proof.
  intros W. destruct t as [k|]; destruct p as [| |r|r n|[]|]; cbn in W |- *; try (exfalso; apply W; exact I); auto.
  - left. destruct (d_dir d); cbn; auto.
  - destruct (d_dir d); cbn; auto 6.
Qed.

Lemma inv_step T e s : inv T s -> inv T (ievent_step T e s).
Proof.
  destruct s as [d ps]. intros I. destruct e as [|i t]; cbn [ievent_step fst snd].
  - destruct I as [[E H]|(D & PP & U & F)]; [left|right]; cbn [fst snd] in *.
    + split; [exact E|]. intros i p Hi. destruct (nth_error_app_case ps I_exists i p Hi) as [K|K]; [eauto|]. subst p. split; [easy|discriminate].
    + split; [exact D|]. split; [exact PP|]. split.
      * intros i j p q Hi Hj. destruct (nth_error_app_case ps I_exists i p Hi) as [K|K]; [|subst p; easy].
        destruct (nth_error_app_case ps I_exists j q Hj) as [K'|K']; [eauto|subst q; easy].
      * intros i p Hi. destruct (nth_error_app_case ps I_exists i p Hi) as [K|K]; [eauto|subst p; easy].
  - destruct (nth_error ps i) as [p|] eqn:Ei; [|exact I].
    assert (Li : i < List.length ps) by (apply nth_error_Some; congruence).
    assert (Dec : worker p \/ ~ worker p) by (destruct p as [| |r|r n|[]|]; cbn; tauto).
    destruct Dec as [Wp|Wp].
    + destruct I as [[E H]|(D & PP & U & F)]; cbn [fst snd] in *; [destruct (H i p Ei); tauto|].
      pose proof (worker_step T d p t Wp (F i p Ei Wp) D) as K. destruct (istep T d p t) as [d' p'].
      destruct K as (D' & PP' & F'). right. cbn [fst snd]. split; [exact D'|]. split; [exact PP'|].
      assert (Only : forall j q, nth_error (list_set ps i p') j = Some q -> worker q -> j = i).
      { intros j q Hj Wq. rewrite set_nth in Hj by exact Li. destruct (Nat.eqb_spec j i) as [Ji|Ji]; [exact Ji|].
        exact (U j i q p Hj Ei Wq Wp). }
      split; [intros a b q q' Ha Hb Wa Wb; rewrite (Only a q Ha Wa), (Only b q' Hb Wb); reflexivity|].
      intros j q Hj Wq. pose proof (Only j q Hj Wq) as ->. rewrite set_nth, Nat.eqb_refl in Hj by exact Li. injection Hj as <-. auto.
    + pose proof (idle_step T d p t Wp) as K. destruct (istep T d p t) as [d' p'] eqn:Es.
      destruct K as [[-> Wp']|(-> & D & -> & ->)].
      * destruct I as [[E H]|(D & PP & U & F)]; [left|right]; cbn [fst snd] in *.
        -- split; [exact E|]. intros j q Hj. rewrite set_nth in Hj by exact Li. destruct (Nat.eqb_spec j i) as [Ji|Ji]; [|eauto].
           injection Hj as <-. split; [exact Wp'|]. subst d. destruct (H i p Ei) as [_ Nd]. apply (f_equal snd) in Es. destruct t, p as [| |r|r n|[]|]; cbn in Es, Wp; try tauto; subst p'; try discriminate; exact Nd.
        -- split; [exact D|]. split; [exact PP|].
           assert (Old : forall j q, nth_error (list_set ps i p') j = Some q -> worker q -> nth_error ps j = Some q).
           { intros j q Hj Wq. rewrite set_nth in Hj by exact Li. destruct (Nat.eqb_spec j i) as [Ji|Ji]; [|exact Hj].
             injection Hj as <-. tauto. }
           split; [intros a b q q' Ha Hb Wa Wb; exact (U a b q q' (Old _ _ Ha Wa) (Old _ _ Hb Wb) Wa Wb)|].
           intros j q Hj Wq. exact (F j q (Old _ _ Hj Wq) Wq).
      * destruct I as [[E H]|(D' & _)]; cbn [fst snd] in *; [|congruence]. right. cbn [fst snd]. subst d.
        split; [reflexivity|]. split; [intros [|] c; cbn; discriminate|].
        assert (Only : forall j q, nth_error (list_set ps i (I_request Pr2)) j = Some q -> worker q -> j = i).
        { intros j q Hj Wq. rewrite set_nth in Hj by exact Li. destruct (Nat.eqb_spec j i) as [Ji|Ji]; [exact Ji|].
          destruct (H j q Hj); tauto. }
        split; [intros a b q q' Ha Hb Wa Wb; rewrite (Only a q Ha Wa), (Only b q' Hb Wb); reflexivity|].
        intros j q Hj Wq. pose proof (Only j q Hj Wq) as ->. rewrite set_nth, Nat.eqb_refl in Hj by exact Li. injection Hj as <-.
        cbn. auto.
Qed.

Lemma inv_history T es s : inv T s -> inv T (history T es s).
Proof. revert s. induction es as [|e es IH]; intros s I; [exact I|]. cbn. apply IH, inv_step, I. Qed.
Lemma inv_start T : inv T (no_disk, []).
Proof. left. split; [reflexivity|]. intros [|i] p H; discriminate H. Qed.

(** ** Later imports *)
Definition busy (p : ipc) : Prop := match p with I_request _ | I_copy _ _ => True | _ => False end.

Lemma settled T es d ps :
  d_dir d = true ->
  (forall i t, In (E_turn i t) es -> t <> Fail /\ forall p, nth_error ps i = Some p -> ~ busy p) ->
  exists ps', history T es (d, ps) = (d, ps') /\ List.length ps <= List.length ps' /\
    (forall i p, nth_error ps' i = Some p -> List.length ps <= i -> p = I_exists \/ p = I_done false).
Proof.
  intros D H.
  assert (G : forall es qs, (forall i t, In (E_turn i t) es -> t <> Fail /\ forall p, nth_error ps i = Some p -> ~ busy p) ->
    List.length ps <= List.length qs ->
    (forall i q, nth_error qs i = Some q -> busy q -> exists p, nth_error ps i = Some p /\ busy p) ->
    (forall i p, nth_error qs i = Some p -> List.length ps <= i -> p = I_exists \/ p = I_done false) ->
    exists ps', history T es (d, qs) = (d, ps') /\ List.length ps <= List.length ps' /\
    (forall i p, nth_error ps' i = Some p -> List.length ps <= i -> p = I_exists \/ p = I_done false)).
  { clear es H. induction es as [|e es IH]; intros qs H L B N; [exists qs; cbn; auto|]. cbn [history].
    assert (H' : forall i t, In (E_turn i t) es -> t <> Fail /\ forall p, nth_error ps i = Some p -> ~ busy p)
      by (intros; apply H; right; assumption).
    destruct e as [|i t]; cbn [ievent_step fst snd].
    - apply IH; [exact H'|rewrite app_length; cbn; lia| |].
      + intros i q Hq Bq. destruct (nth_error_app_case qs I_exists i q Hq) as [K|K]; [eauto|subst q; easy].
      + intros i q Hq Li. destruct (nth_error_app_case qs I_exists i q Hq) as [K|K]; [eauto|auto].
    - destruct (nth_error qs i) as [q|] eqn:Eq; [|apply IH; assumption].
      destruct (H i t (or_introl eq_refl)) as [NF NB]. destruct t as [k|]; [|congruence].
      assert (Nq : ~ busy q) by (intros Bq; destruct (B i q Eq Bq) as (p & Ep & Bp); exact (NB p Ep Bp)).
      assert (Li : i < List.length qs) by (apply nth_error_Some; congruence).
      assert (St : exists q', istep T d q (Go k) = (d, q') /\ ~ busy q' /\ (q = I_exists \/ q = I_done false -> q' = I_done false)).
      { destruct q as [| |r|r n|b|]; cbn in Nq |- *; try tauto; rewrite ?D; eexists; (split; [reflexivity|]); split; auto; intros [E|E]; try discriminate E; exact E. }
      destruct St as (q' & -> & Nq' & Q'). apply IH; [exact H'|rewrite list_set_length; exact L| |].
      + intros j u Hu Bu. rewrite set_nth in Hu by exact Li. destruct (Nat.eqb_spec j i); [injection Hu as <-; tauto|eauto].
      + intros j u Hu Lj. rewrite set_nth in Hu by exact Li. destruct (Nat.eqb_spec j i) as [->|]; [injection Hu as <-; right; apply Q'; eauto|eauto]. }
  apply G; auto; [eauto|]. intros i p Hi Li. exfalso. assert (i < List.length ps) by (apply nth_error_Some; congruence). lia.
Qed.

(** ** One import on its own *)
Definition alone (T : Server) (ts : list turn) : Disk * ipc :=
  fold_left (fun s t => istep T (fst s) (snd s) t) ts (no_disk, I_exists).
Definition left_over (T : Server) (p : ipc) : nat :=
  match p with
  | I_exists => slen (T Pr2) + slen (T Fetch) + 6
  | I_mkdir => slen (T Pr2) + slen (T Fetch) + 5
  | I_request Pr2 => slen (T Pr2) + slen (T Fetch) + 4
  | I_copy Pr2 n => slen (T Pr2) - n + slen (T Fetch) + 3
  | I_request Fetch => slen (T Fetch) + 2
  | I_copy Fetch n => slen (T Fetch) - n + 1
  | _ => 0
  end.
Lemma progress T d p k : (p = I_exists \/ p = I_mkdir) /\ d = no_disk \/ worker p /\ p <> I_done true /\ fits T p d ->
  let (d', p') := istep T d p (Go k) in
  left_over T p' < left_over T p /\ ((p' = I_mkdir /\ d' = no_disk) \/ worker p').
Proof.
  intros [[[-> | ->] ->]|(W & N & F)]; [cbn; split; [lia|auto]|cbn; split; [lia|auto]|].
  destruct p as [| |r|r n|[]|]; cbn in W; try easy; cbn [istep].
  - destruct r; cbn [left_over worker]; split; auto; lia.
  - destruct (Nat.ltb_spec n (slen (T r))) as [L|L].
    + assert (Lb : slen (substring n (S k) (T r)) = Nat.min (S k) (slen (T r) - n)) by (apply sub_len; lia).
      destruct r; cbn [left_over worker]; (split; [lia|auto]).
    + destruct r; cbn [left_over worker]; (split; [lia|auto]).
Qed.

Lemma alone_done T ts : Forall (fun t => t <> Fail) ts -> slen (T Pr2) + slen (T Fetch) + 6 <= List.length ts ->
  alone T ts = (mkDisk true (Some (T Pr2)) (Some (T Fetch)), I_done true).
Proof.
  intros F L. unfold alone.
  assert (G : forall ts d p, Forall (fun t => t <> Fail) ts -> left_over T p <= List.length ts ->
    (p = I_exists \/ p = I_mkdir) /\ d = no_disk \/ worker p /\ fits T p d /\ d_dir d = true ->
    fold_left (fun s t => istep T (fst s) (snd s) t) ts (d, p) = (mkDisk true (Some (T Pr2)) (Some (T Fetch)), I_done true)).
  { clear ts F L. induction ts as [|t ts IH]; intros d p F L H.
    - destruct H as [[[-> | ->] ->]|(W & Fi & D)]; cbn in L; [lia|lia|].
      destruct p as [| |[]|[] n|[]|]; cbn in L, W, Fi |- *; try tauto; try lia.
      destruct Fi as [E E']. destruct d as [a b c]; cbn in *; subst; reflexivity.
    - inversion F as [|? ? Ft F']; subst. destruct t as [k|]; [|congruence]. cbn [fold_left fst snd].
      destruct H as [[Pp Ed]|(W & Fi & D)].
      + pose proof (progress T d p k (or_introl (conj Pp Ed))) as K. subst d. cbn [List.length] in L.
        destruct Pp as [-> | ->]; cbn in K, L |- *; apply IH; auto; try (cbn; lia). right. cbn. auto.
      + assert (Dn : p = I_done true \/ p <> I_done true) by (destruct p as [| |r|r n|[]|]; auto; right; discriminate).
        destruct Dn as [->|Dn].
        * cbn [istep]. apply IH; [exact F'|cbn; lia|right; auto].
        * pose proof (progress T d p k (or_intror (conj W (conj Dn Fi)))) as K. pose proof (worker_step T d p (Go k) W Fi D) as Q.
          destruct (istep T d p (Go k)) as [d' p']. destruct K as [K [[-> ->]|W']], Q as (D' & _ & Fi').
          -- discriminate D'.
          -- apply IH; [exact F'|cbn in L; lia|right; auto]. }
  apply G; auto.
Qed.
Lemma history_alone T ts d p : history T (map (E_turn 0) ts) (d, [p]) =
  let s := fold_left (fun s t => istep T (fst s) (snd s) t) ts (d, p) in (fst s, [snd s]).
Proof.
  revert d p. induction ts as [|t ts IH]; intros d p; [reflexivity|]. cbn [map history ievent_step fst snd nth_error fold_left].
  destruct (istep T d p t) as [d' p']. cbn [list_set]. apply IH.
Qed.
