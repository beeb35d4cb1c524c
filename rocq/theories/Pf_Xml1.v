(** Reading characters, names, references and white space. *)
From Coq Require Import String List Arith NArith Ascii Bool Lia.
From Verif Require Import Base Urdf TinyXml Spec_Xml.
Import ListNotations.
Local Open Scope string_scope.
Local Open Scope m_scope.

(** ** characters *)
Lemma is_iff a c : is a c = true <-> c = a.
Proof. apply Ascii.eqb_eq. Qed.
Lemma is_not a c : c <> a -> is a c = false.
Proof. intros H. apply Ascii.eqb_neq. exact H. Qed.
Lemma is_refl a : is a a = true.
Proof. apply Ascii.eqb_refl. Qed.
Lemma is_code a c : N_of_ascii c <> N_of_ascii a -> is a c = false.
Proof. intros H. apply is_not. intros ->. apply H. reflexivity. Qed.
Lemma between_true a b c : (a <= N_of_ascii c <= b)%N -> between a b c = true.
Proof. intros [H1 H2]. unfold between, code. apply andb_true_intro. split; apply N.leb_le; assumption. Qed.
Lemma between_false a b c : (N_of_ascii c < a \/ b < N_of_ascii c)%N -> between a b c = false.
Proof.
  intros H. unfold between, code. apply andb_false_iff.
  destruct H; [left|right]; apply N.leb_gt; assumption.
Qed.
Lemma between_iff a b c : between a b c = true <-> (a <= N_of_ascii c <= b)%N.
Proof.
  unfold between, code. rewrite andb_true_iff, !N.leb_le. reflexivity.
Qed.

Ltac nums := unfold byte_in, letter, digit, byte_in in *; lia.

Lemma not_space c : (33 <= N_of_ascii c)%N -> is_space c = false.
Proof. intros H. unfold is_space. rewrite !between_false by lia. reflexivity. Qed.
Lemma white_is_space c : white_char c -> is_space c = true.
Proof. intros [->|[->|[->| ->]]]; reflexivity. Qed.
Lemma white_not_lead c : white_char c -> is LEAD_0 c = false.
Proof. intros [->|[->|[->| ->]]]; reflexivity. Qed.
Lemma len_ascii c : (N_of_ascii c < 194)%N -> utf8_len c = 1.
Proof. intros H. unfold utf8_len. rewrite !between_false by lia. reflexivity. Qed.
Lemma len_two c : byte_in 194 223 c -> utf8_len c = 2.
Proof. intros H. unfold byte_in in H. unfold utf8_len. rewrite between_true by lia. reflexivity. Qed.
Lemma len_three c : byte_in 224 239 c -> utf8_len c = 3.
Proof.
  intros H. unfold byte_in in H. unfold utf8_len. rewrite (between_false 194 223) by lia.
  rewrite between_true by lia. reflexivity.
Qed.
Lemma len_four c : byte_in 240 244 c -> utf8_len c = 4.
Proof.
  intros H. unfold byte_in in H. unfold utf8_len. rewrite (between_false 194 223) by lia.
  rewrite (between_false 224 239) by lia. rewrite between_true by lia. reflexivity.
Qed.
Lemma announces_len c : announces c = utf8_len c.
Proof. reflexivity. Qed.
Lemma len_pos c : 1 <= utf8_len c.
Proof. unfold utf8_len. destruct (between 194 223 c), (between 224 239 c), (between 240 244 c); lia. Qed.

(** ** strings *)
Lemma app_nil_s (s : string) : s ++ "" = s.
Proof. induction s; cbn; [|rewrite IHs]; reflexivity. Qed.
Lemma app_assoc_s (a b c : string) : a ++ b ++ c = (a ++ b) ++ c.
Proof. induction a; cbn; [|rewrite IHa]; reflexivity. Qed.
Lemma app_length_s a b : slen (a ++ b) = slen a + slen b.
Proof. induction a; cbn; [|rewrite IHa]; reflexivity. Qed.
Lemma sdrop_app a b : sdrop (slen a) (a ++ b) = Some b.
Proof. induction a; cbn; [|exact IHa]; reflexivity. Qed.
Lemma prefix_app a b : prefix a (a ++ b) = true.
Proof.
  induction a as [|c a IH]; cbn; [destruct b; reflexivity|].
  destruct (ascii_dec c c) as [_|N]; [exact IH|contradiction].
Qed.
Lemma each_app P a b : each P (a ++ b) <-> each P a /\ each P b.
Proof. induction a as [|c a IH]; cbn; [tauto|]. rewrite IH. tauto. Qed.
Lemma each_imp (P Q : ascii -> Prop) s : (forall c, P c -> Q c) -> each P s -> each Q s.
Proof. intros H. induction s as [|c s IH]; cbn; [tauto|]. intros [A B]. split; auto. Qed.

Lemma uncut_app a b : uncut a -> uncut b -> uncut (a ++ b).
Proof.
  induction a as [|c a IH]; cbn; [tauto|]. intros [H H1] H2. split; [|auto].
  rewrite app_length_s. lia.
Qed.
Lemma one_char_uncut u : one_char u -> uncut u.
Proof.
  intros H. destruct H as [c H|a b H Hb|a b c H Hb Hc|a b c d H Hb Hc Hd]; cbn [uncut]; rewrite ?announces_len;
    repeat split; cbn [String.length].
  - rewrite len_ascii by nums. lia.
  - rewrite len_two by assumption. lia.
  - rewrite len_ascii by nums. lia.
  - rewrite len_three by assumption. lia.
  - rewrite len_ascii by nums. lia.
  - rewrite len_ascii by nums. lia.
  - rewrite len_four by assumption. lia.
  - rewrite len_ascii by nums. lia.
  - rewrite len_ascii by nums. lia.
  - rewrite len_ascii by nums. lia.
Qed.
Lemma utf8_uncut s : utf8_text s -> uncut s.
Proof. induction 1; [exact I|]. apply uncut_app; [apply one_char_uncut|]; assumption. Qed.
Lemma utf8_app a b : utf8_text a -> utf8_text b -> utf8_text (a ++ b).
Proof.
  intros Ha Hb. induction Ha as [|u t Hu Ht IH]; [exact Hb|]. rewrite <- app_assoc_s. constructor; assumption.
Qed.
Lemma one_char_nonzero u : one_char u -> each (fun c => N_of_ascii c <> 0%N) u.
Proof. intros H. destruct H; cbn; unfold byte_in in *; repeat split; lia. Qed.
Lemma utf8_nonzero s : utf8_text s -> each (fun c => N_of_ascii c <> 0%N) s.
Proof. induction 1; [exact I|]. apply each_app. split; [apply one_char_nonzero|]; assumption. Qed.
Lemma c_str_id s : each (fun c => N_of_ascii c <> 0%N) s -> c_str s = s.
Proof.
  induction s as [|c s IH]; cbn; [reflexivity|]. intros [H H1].
  unfold code. rewrite (proj2 (N.eqb_neq _ _) H). rewrite IH by assumption. reflexivity.
Qed.
Lemma ascii_utf8 s : each (byte_in 1 127) s -> utf8_text s.
Proof.
  induction s as [|c s IH]; cbn; [constructor|]. intros [H H1].
  change (String c s) with (String c "" ++ s). constructor; [constructor; exact H|auto].
Qed.

(** ** runs that succeed without an error *)
Definition good (s : pst) : Prop := p_err s = false /\ uncut (p_stamp s).
Definition runs {A} (m : M pst A) (a : A) : Prop :=
  forall s, good s -> exists s', good s' /\ m s = (s', Ok a).

Lemma runs_ret {A} (a : A) : runs (ret a) a.
Proof. intros s H. exists s. split; [exact H|reflexivity]. Qed.
Lemma runs_bind {A B} (m : M pst A) (f : A -> M pst B) a b : runs m a -> runs (f a) b -> runs (bind m f) b.
Proof.
  intros H1 H2 s Hs. destruct (H1 s Hs) as (s1 & G1 & E1). destruct (H2 s1 G1) as (s2 & G2 & E2).
  exists s2. split; [exact G2|]. unfold bind. rewrite E1. exact E2.
Qed.
Lemma runs_lift {A} (r : res A) a : r = Ok a -> runs (lift r) a.
Proof. intros -> s H. exists s. split; [exact H|reflexivity]. Qed.

Lemma walk_uncut e now p : forall k, uncut p -> exists p', stamp_walk e k p now = Some p' /\ uncut p'.
Proof.
  induction p as [|c p IH]; intros k U.
  - exists "". split; [reflexivity|exact I].
  - cbn [stamp_walk]. destruct U as [U1 U]. destruct k as [|k]; [|exact (IH k U)].
    destruct (Nat.ltb now _); [|exists (String c p); split; [reflexivity|split; assumption]].
    destruct (is (chr 13) c); [exact (IH _ U)|]. destruct (is (chr 10) c); [exact (IH _ U)|].
    destruct (is_utf8 e); [|exact (IH _ U)]. destruct (is LEAD_0 c) eqn:L; [|exact (IH _ U)].
    apply is_iff in L. subst c. change (announces LEAD_0) with 3 in U1.
    destruct p as [|d [|f p]]; cbn in U1; [lia|lia|]. exact (IH _ U).
Qed.
Lemma runs_stamp e q : runs (Stamp e q) tt.
Proof.
  intros s [H U]. unfold Stamp. destruct (walk_uncut e (slen q) _ 0 U) as (p' & E & U'). rewrite E.
  eexists. split; [|reflexivity]. split; assumption.
Qed.

(** ** white space *)
Definition solid (s : string) : Prop :=
  match s with "" => False | String c _ => is_space c = false /\ is LEAD_0 c = false end.

Lemma solid_ascii c t : (33 <= N_of_ascii c <= 127)%N -> solid (String c t).
Proof. intros H. split; [apply not_space; lia|]. apply is_code. cbn. lia. Qed.
Lemma skip_solid e s : solid s -> skip_spaces e s = s.
Proof.
  destruct s as [|c s]; [reflexivity|]. intros [H1 H2]. cbn [skip_spaces]. rewrite H2, H1.
  rewrite andb_false_r. reflexivity.
Qed.
Lemma skip_white_spaces e w s : white w -> skip_spaces e (w ++ s) = skip_spaces e s.
Proof.
  induction w as [|c w IH]; [reflexivity|]. intros [H1 H2]. cbn [append skip_spaces].
  rewrite (white_not_lead c H1), (white_is_space c H1), andb_false_r. exact (IH H2).
Qed.
Lemma skip_white e w s : white w -> solid s -> SkipWhiteSpace e (Some (w ++ s)) = Some s.
Proof.
  intros W S0. unfold SkipWhiteSpace. rewrite (skip_white_spaces e w s W), (skip_solid e s S0).
  destruct w; cbn; [destruct s; [destruct S0|reflexivity]|reflexivity].
Qed.
Lemma skip_solid_p e s : solid s -> SkipWhiteSpace e (Some s) = Some s.
Proof. intros H. exact (skip_white e "" s I H). Qed.
Lemma skip_white_p e w s : white w -> s <> "" -> SkipWhiteSpace e (Some (w ++ s)) = SkipWhiteSpace e (Some s).
Proof.
  intros W S0. unfold SkipWhiteSpace. rewrite (skip_white_spaces e w s W).
  destruct w; cbn; [|destruct s; [contradiction|]]; reflexivity.
Qed.
Lemma skip_white_only e w : white w -> skip_spaces e w = "".
Proof. intros W. rewrite <- (app_nil_s w), (skip_white_spaces e w "" W). reflexivity. Qed.

(** ** names *)
Lemma name_first_start c : name_first c -> name_start c = true /\ name_char c = true /\ (33 <= N_of_ascii c <= 127)%N.
Proof.
  intros [L| ->]; [|repeat split; try reflexivity; vm_compute; discriminate].
  assert (E : is_letter c = true).
  { unfold is_letter. apply orb_true_iff. destruct L as [L|L]; [left|right]; apply between_true; exact L. }
  unfold name_start, name_char, is_alpha, is_alnum. rewrite E. repeat split; try reflexivity; destruct L; nums.
Qed.
Lemma name_later_char c : name_later c -> name_char c = true.
Proof.
  intros [L|[D|[->|[->|[->| ->]]]]]; try reflexivity.
  - apply name_first_start. left. exact L.
  - unfold name_char, is_alnum. replace (is_digit c) with true; [rewrite orb_true_r; reflexivity|].
    symmetry. apply between_true. exact D.
Qed.
Lemma name_later_ascii c : name_later c -> byte_in 1 127 c.
Proof. intros [L|[D|[->|[->|[->| ->]]]]]; unfold byte_in; [destruct L; nums|nums|split; vm_compute; discriminate ..]. Qed.
Lemma name_first_later c : name_first c -> name_later c.
Proof. intros [L| ->]; [left; exact L|right; right; left; reflexivity]. Qed.
Lemma xml_name_each n : xml_name n -> each name_later n.
Proof. destruct n as [|c n]; [intros []|]. intros [H1 H2]. split; [apply name_first_later|]; assumption. Qed.
Lemma xml_name_utf8 n : xml_name n -> utf8_text n.
Proof. intros H. apply ascii_utf8, (each_imp name_later); [exact name_later_ascii|apply xml_name_each, H]. Qed.
Lemma white_utf8 w : white w -> utf8_text w.
Proof.
  intros H. apply ascii_utf8, (each_imp white_char); [|exact H].
  intros c [->|[->|[->| ->]]]; split; vm_compute; discriminate.
Qed.

Definition ends_name (s : string) : Prop := match s with "" => True | String c _ => name_char c = false end.
Lemma name_span_app n s : each name_later n -> ends_name s -> name_span (n ++ s) = (n, s).
Proof.
  induction n as [|c n IH]; intros H E.
  - destruct s as [|c s]; [reflexivity|]. cbn in *. rewrite E. reflexivity.
  - destruct H as [H1 H2]. cbn. rewrite (name_later_char c H1), (IH H2 E). reflexivity.
Qed.
Lemma read_name_app n s : xml_name n -> ends_name s -> ReadName (Some (n ++ s)) = (n, Some s).
Proof.
  intros H E. pose proof (name_span_app n s (xml_name_each n H) E) as X.
  destruct n as [|c n]; [destruct H|]. destruct H as [H _]. cbn [append] in *. unfold ReadName.
  rewrite (proj1 (name_first_start c H)), X. reflexivity.
Qed.
Lemma xml_name_solid n s : xml_name n -> solid (n ++ s).
Proof.
  destruct n as [|c n]; [intros []|]. intros [H _]. cbn [append]. apply solid_ascii. apply name_first_start, H.
Qed.
Lemma ends_name_white w s : white w -> ends_name s -> ends_name (w ++ s).
Proof.
  destruct w as [|c w]; [tauto|]. intros [[->|[->|[->| ->]]] _] _; reflexivity.
Qed.
