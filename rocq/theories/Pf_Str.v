(** Splitting attribute strings and reading numbers. *)
From Coq Require Import QArith ZArith String Ascii List Bool Lia Arith.
From Verif Require Import Base Num Pose Urdf Decimal Spec_Str Pf_Base.
Import ListNotations.
Local Open Scope string_scope.

(** ** strings *)
Lemma sapp_assoc a b c : (a ++ b) ++ c = a ++ (b ++ c).
Proof. induction a; simpl; congruence. Qed.
Lemma sapp_nil a : a ++ "" = a.
Proof. induction a; simpl; congruence. Qed.

(** ** words *)
Definition nonempty (s : string) : bool := match s with EmptyString => false | _ => true end.

Lemma no_space_app a b : no_space (a ++ b) <-> no_space a /\ no_space b.
Proof. induction a as [|c a IH]; simpl; tauto. Qed.

Lemma split_words s : forall cur, no_space cur ->
  words (cur ++ s) (filter nonempty (split_go " "%char cur s)).
Proof.
  induction s as [|c s IH]; intros cur N; cbn [split_go].
  - rewrite sapp_nil. destruct cur as [|x cur]; [constructor|]. cbn [filter nonempty].
    replace (String x cur) with (String x cur ++ "") at 1 by apply sapp_nil. constructor; [discriminate | exact N | now left | constructor].
  - destruct (Ascii.eqb_spec c " ") as [->|D].
    + specialize (IH "" I). cbn [append] in IH. cbn [filter]. destruct cur as [|x cur]; cbn [nonempty].
      * cbn [append]. now constructor.
      * constructor; [discriminate | exact N | right; eauto | now constructor].
    + replace (cur ++ String c s) with ((cur ++ String c "") ++ s) by (now rewrite sapp_assoc). apply IH. apply no_space_app. simpl. auto.
Qed.

Lemma word_inj w : forall w' s s', w ++ s = w' ++ s' -> no_space w -> no_space w' -> (s = "" \/ exists t, s = String " " t) -> (s' = "" \/ exists t, s' = String " " t) -> w = w' /\ s = s'.
Proof.
  induction w as [|c w IH]; intros [|c' w'] s s' E N N' H H'; simpl in *.
  - auto.
  - exfalso. subst s. destruct H as [H|(t & H)]; inversion H; subst. now destruct N'.
  - exfalso. subst s'. destruct H' as [H'|(t & H')]; inversion H'; subst. now destruct N.
  - inversion E; subst. destruct (IH w' s s') as (-> & ->); tauto.
Qed.

Lemma words_det s ws : words s ws -> forall ws', words s ws' -> ws = ws'.
Proof.
  assert (K : forall w t, w <> "" -> no_space w -> w ++ t <> String " " t /\ forall u, w ++ t <> String " " u).
  { intros [|c w] t Nw Ns; [now exfalso; apply Nw|]. destruct Ns as (Nc & _). split; [|intros u]; intros E; simpl in E; inversion E; auto. }
  induction 1 as [|s ws H IH|w s ws Nw Ns Hs H IH]; intros ws' H'.
  - inversion H' as [| |w s ws2 Nw Ns Hs H2 E]; auto. exfalso. destruct w; [now apply Nw | discriminate E].
  - inversion H' as [|s2 ws2 H2|w s2 ws2 Nw Ns Hs H2 E]; subst; auto. exfalso. exact (proj2 (K w s2 Nw Ns) _ E).
  - inversion H' as [E|s2 ws2 H2 E|w2 s2 ws2 Nw2 Ns2 Hs2 H2 E]; subst.
    + exfalso. destruct w; [now apply Nw | discriminate E].
    + exfalso. exact (proj2 (K w s Nw Ns) _ (eq_sym E)).
    + destruct (word_inj w2 w s2 s E Ns2 Ns Hs2 Hs) as (-> & ->). f_equal. now apply IH.
Qed.

Lemma words_split s ws : words s ws <-> ws = filter nonempty (split_string " "%char s).
Proof.
  pose proof (split_words s "" I) as W. cbn [append] in W. split.
  - intros H. eapply words_det; eauto.
  - intros ->. exact W.
Qed.

Section V.
Context `{A : Arith}.

Lemma conv_filter l : conv_pieces l = conv_pieces (filter nonempty l).
Proof. induction l as [|[|c w] l IH]; cbn [filter nonempty conv_pieces]; auto. now rewrite IH. Qed.

Lemma conv_three l a b c : Forall (fun w => w <> "") l ->
  (conv_pieces l = Some [a; b; c] <-> exists x y z, l = [x; y; z] /\ str_to_double x = Some a /\ str_to_double y = Some b /\ str_to_double z = Some c).
Proof.
  intros F.
  assert (G : forall l r, Forall (fun w => w <> "") l -> (conv_pieces l = Some r <-> Forall2 (fun w x => str_to_double w = Some x) l r)).
  { clear. induction l as [|[|ch w] l IH]; intros r F; inversion F as [|? ? F1 F2]; subst.
    - split; [intros E; inversion E; constructor | intros H; inversion H; reflexivity].
    - easy.
    - cbn [conv_pieces]. destruct (str_to_double (String ch w)) as [d|] eqn:Ed.
      + destruct (conv_pieces l) as [t|] eqn:Et.
        * split; [intros E; inversion E; subst; constructor; [exact Ed | now apply IH]|]. intros H. inversion H as [|? ? ? ? H1 H2]; subst.
          apply IH in H2; auto. congruence.
        * split; [discriminate|]. intros H. inversion H as [|? ? ? ? H1 H2]; subst. apply IH in H2; auto. congruence.
      + split; [discriminate|]. intros H. inversion H; congruence. }
  rewrite (G l [a; b; c] F). split.
  - intros H. inversion H as [|x ? l1 ? H1 T1]; subst. inversion T1 as [|y ? l2 ? H2 T2]; subst. inversion T2 as [|z ? l3 ? H3 T3]; subst. inversion T3; subst.
    exists x, y, z. auto.
  - intros (x & y & z & -> & H1 & H2 & H3). repeat constructor; auto.
Qed.

Lemma v_init_words s v : v_init s = Some v <->
  exists a b c, words s [a; b; c] /\ str_to_double a = Some (vx v) /\ str_to_double b = Some (vy v) /\ str_to_double c = Some (vz v).
Proof.
  unfold v_init. rewrite conv_filter. set (l := filter nonempty (split_string " "%char s)).
  assert (F : Forall (fun w => w <> "") l).
  { apply Forall_forall. intros w I. apply filter_In in I. destruct I as (_ & I). now destruct w. }
  destruct v as [x y z]. cbn [vx vy vz]. transitivity (conv_pieces l = Some [x; y; z]).
  - destruct (conv_pieces l) as [[|a [|b [|c [|]]]]|]; split; intros E; try discriminate; inversion E; reflexivity.
  - rewrite (conv_three l x y z F). split.
    + intros (a & b & c & E & H). exists a, b, c. split; [now apply words_split|]. exact H.
    + intros (a & b & c & W & H). exists a, b, c. split; [|exact H]. symmetry. now apply words_split.
Qed.
End V.

(** ** numbers *)
Lemma digit_iff c : digit c <-> is_digit c = true.
Proof.
  split.
  - intros H. unfold digit in H. repeat (destruct H as [<-|H]; [reflexivity|]). destruct H.
  - intros H. unfold digit. destruct c as [[] [] [] [] [] [] [] []]; vm_compute in H; try discriminate H; vm_compute; tauto.
Qed.
Lemma white_iff c : white c <-> is_space c = true.
Proof.
  split.
  - intros H. unfold white in H. destruct c as [[] [] [] [] [] [] [] []]; vm_compute in H; try reflexivity; exfalso; repeat (destruct H as [H|H]; [discriminate H|]); exact H.
  - intros H. unfold white. destruct c as [[] [] [] [] [] [] [] []]; vm_compute in H; try discriminate H; vm_compute; tauto.
Qed.

Definition starts (f : ascii -> bool) (s : string) : bool := match s with String c _ => f c | EmptyString => false end.

Lemma dec_digits_fwd ds : forall acc k t, all_digits ds -> starts is_digit t = false ->
  dec_digits acc k (ds ++ t) = (number acc ds, (k + String.length ds)%nat, t).
Proof.
  induction ds as [|c ds IH]; intros acc k t D N; cbn [append number String.length].
  - rewrite Nat.add_0_r. destruct t as [|c t]; [reflexivity|]. cbn [dec_digits]. cbn [starts] in N. now rewrite N.
  - destruct D as (Dc & D). apply digit_iff in Dc. cbn [dec_digits]. rewrite Dc, (IH _ _ _ D N). f_equal. f_equal. lia.
Qed.
Lemma dec_digits_inv s : forall acc k v k' t, dec_digits acc k s = (v, k', t) ->
  exists ds, s = ds ++ t /\ all_digits ds /\ v = number acc ds /\ k' = (k + String.length ds)%nat /\ starts is_digit t = false.
Proof.
  induction s as [|c s IH]; intros acc k v k' t E; cbn [dec_digits] in E.
  - inversion E; subst. exists "". cbn. repeat split; auto. 
  - destruct (is_digit c) eqn:Ed.
    + destruct (IH _ _ _ _ _ E) as (ds & -> & D & -> & -> & N). exists (String c ds). cbn. repeat split; auto; try (now apply digit_iff); try lia.
    + inversion E; subst. exists "". cbn. repeat split; auto.
Qed.

Lemma skip_fwd ws : forall t, all_white ws -> starts is_space t = false -> skip_space (ws ++ t) = t.
Proof.
  induction ws as [|c ws IH]; intros t W N; cbn [append].
  - destruct t as [|c t]; [reflexivity|]. cbn [skip_space]. cbn [starts] in N. now rewrite N.
  - destruct W as (Wc & W). apply white_iff in Wc. cbn [skip_space]. rewrite Wc. now apply IH.
Qed.
Lemma skip_inv s : exists ws, s = ws ++ skip_space s /\ all_white ws.
Proof.
  induction s as [|c s IH]; [exists ""; cbn; auto|]. cbn [skip_space]. destruct (is_space c) eqn:E.
  - destruct IH as (ws & Es & W). exists (String c ws). cbn. rewrite <- Es. split; [reflexivity|]. split; [now apply white_iff | exact W].
  - exists "". cbn. auto.
Qed.

Definition is_sign (c : ascii) : bool := Ascii.eqb c "-" || Ascii.eqb c "+".
Lemma dec_sign_fwd sg z t : sign sg z -> starts is_sign t = false -> dec_sign (sg ++ t) = (negb (z =? 1)%Z, t).
Proof.
  intros [] N; try reflexivity. destruct t as [|c t]; [reflexivity|]. cbn [append dec_sign]. cbn [starts] in N. unfold is_sign in N.
  apply orb_false_iff in N. destruct N as (-> & ->). reflexivity.
Qed.
Lemma dec_sign_inv s neg t : dec_sign s = (neg, t) -> exists sg z, s = sg ++ t /\ sign sg z /\ neg = negb (z =? 1)%Z.
Proof.
  destruct s as [|c s]; cbn [dec_sign]; intros E; [inversion E; subst; exists "", 1%Z; repeat split; constructor|].
  destruct (Ascii.eqb_spec c "-") as [->|_]; [inversion E; subst; exists "-", (-1)%Z; repeat split; constructor|].
  destruct (Ascii.eqb_spec c "+") as [->|_]; [inversion E; subst; exists "+", 1%Z; repeat split; constructor|].
  inversion E; subst. exists "", 1%Z. repeat split; constructor.
Qed.

Lemma digits_start ds t f : all_digits ds -> (forall c, digit c -> f c = false) -> starts f t = false -> starts f (ds ++ t) = false.
Proof. intros D H N. destruct ds as [|c ds]; [exact N|]. destruct D as (D & _). cbn. auto. Qed.
Lemma digit_no_sign c : digit c -> is_sign c = false.
Proof. intros H. unfold digit in H. repeat (destruct H as [<-|H]; [reflexivity|]). destruct H. Qed.
Lemma digit_no_space c : digit c -> is_space c = false.
Proof. intros H. unfold digit in H. repeat (destruct H as [<-|H]; [reflexivity|]). destruct H. Qed.

Lemma sign_sgn sg z : sign sg z -> forall v, (if negb (z =? 1)%Z then - v else v)%Z = (z * v)%Z.
Proof. intros [] v; cbn [negb Z.eqb Pos.eqb]; lia. Qed.

Lemma dec_exponent_iff s e : dec_exponent s = Some e <-> exponent s e.
Proof.
  split.
  - unfold dec_exponent. destruct s as [|c s]; [intros E; inversion E; constructor|].
    destruct (Ascii.eqb_spec c "e") as [->|]; [|destruct (Ascii.eqb_spec c "E") as [->|]; [|discriminate]]; cbn [orb];
    (destruct (dec_sign s) as [neg t] eqn:Es; destruct (dec_sign_inv _ _ _ Es) as (sg & z & -> & Sg & ->);
     destruct (dec_digits 0 0 t) as [[v k] r] eqn:Ed; destruct (dec_digits_inv _ _ _ _ _ _ Ed) as (ds & -> & D & -> & -> & _);
     destruct ds as [|d ds]; [destruct r; discriminate|]; destruct r; [|discriminate]; cbn [String.length plus];
     intros E; inversion E; rewrite (sign_sgn sg z Sg), sapp_nil; constructor; auto; discriminate).
  - intros [|c sg z ds Hc Sg Nd D]; [reflexivity|]. cbn [dec_exponent].
    replace (Ascii.eqb c "e" || Ascii.eqb c "E") with true by (destruct Hc as [->| ->]; reflexivity).
    rewrite (dec_sign_fwd sg z ds Sg).
    + rewrite <- (sapp_nil ds), (dec_digits_fwd ds 0 0 "" D eq_refl). rewrite sapp_nil. destruct ds as [|d ds]; [easy|]. cbn [String.length plus].
      now rewrite (sign_sgn sg z Sg).
    + rewrite <- (sapp_nil ds). apply digits_start; [exact D | apply digit_no_sign | reflexivity].
Qed.

Lemma exponent_start s e : exponent s e -> starts is_digit s = false /\ starts (fun c => Ascii.eqb c ".") s = false.
Proof. intros [|c sg z ds [->| ->] _ _ _]; split; reflexivity. Qed.

Lemma number_app a b acc : number acc (a ++ b) = number (number acc a) b.
Proof. revert acc; induction a as [|c a IH]; intros acc; cbn [append number]; auto. Qed.

Lemma length0 s : String.length s = 0%nat -> s = "".
Proof. destruct s; [reflexivity|discriminate]. Qed.

Lemma limit_iff m : Qle_bool dbl_limit m = false <-> (m < inject_Z (2 ^ 1024 - 2 ^ 970))%Q.
Proof.
  unfold dbl_limit. generalize (inject_Z (2 ^ 1024 - 2 ^ 970)). intros q. split; intros H.
  - apply Qnot_le_lt. intros C. apply Qle_bool_iff in C. congruence.
  - destruct (Qle_bool q m) eqn:E; [|reflexivity]. apply Qle_bool_iff in E. exfalso. revert H. now apply Qle_not_lt.
Qed.

Theorem decimal_iff s v : strToDouble s = Some v <-> decimal s v.
Proof.
  split.
  - unfold strToDouble. destruct (skip_inv s) as (ws & Es & W). destruct (dec_sign (skip_space s)) as [neg s1] eqn:E1.
    destruct (dec_sign_inv _ _ _ E1) as (sg & z & Es1 & Sg & ->). rewrite Es1 in Es. clear E1 Es1. subst s.
    destruct (dec_digits 0 0 s1) as [[i ni] s2] eqn:E2. destruct (dec_digits_inv _ _ _ _ _ _ E2) as (ip & -> & Dip & -> & -> & N2). clear E2.
    assert (X : exists fr fd s3, s2 = fr ++ s3 /\ fraction fr fd /\
       match s2 with String c t => if Ascii.eqb c "." then dec_digits (number 0 ip) 0 t else (number 0 ip, 0%nat, s2) | EmptyString => (number 0 ip, 0%nat, s2) end
       = (number 0 (ip ++ fd), String.length fd, s3)).
    { assert (G0 : (number 0 ip, 0%nat, s2) = (number 0 (ip ++ ""), String.length "", s2)) by (now rewrite sapp_nil).
      destruct s2 as [|c t]; [exists "", "", ""; repeat split; auto; constructor|].
      destruct (Ascii.eqb_spec c ".") as [->|]; [|exists "", "", (String c t); repeat split; auto; constructor].
      destruct (dec_digits (number 0 ip) 0 t) as [[m nf] s3] eqn:E3. destruct (dec_digits_inv _ _ _ _ _ _ E3) as (fd & -> & Dfd & -> & -> & _).
      exists (String "." fd), fd, s3. repeat split; [now constructor|]. now rewrite number_app. }
    destruct X as (fr & fd & s3 & -> & Fr & ->). cbn [plus]. destruct (Nat.eqb_spec (String.length ip + String.length fd) 0) as [Z|NZ]; [discriminate|].
    destruct (dec_exponent s3) as [e|] eqn:E4; [|discriminate]. apply dec_exponent_iff in E4.
    destruct (Qle_bool dbl_limit (dec_value false (number 0 (ip ++ fd)) (e - Z.of_nat (String.length fd)))) eqn:E5; [discriminate|].
    intros E; inversion E; subst v. apply limit_iff in E5. exists ws, sg, z, ip, fr, fd, s3, e. repeat split; auto.
    + destruct ip; [right; intros ->; now apply NZ | left; discriminate].
    + unfold dec_value. now destruct (z =? 1)%Z.
  - intros (ws & sg & z & ip & fr & fd & ex & e & -> & W & Sg & Dip & Fr & Ex & Ne & Lt & ->). destruct (exponent_start _ _ Ex) as (X1 & X2).
    assert (N1 : forall f, (forall c, digit c -> f c = false) -> f "."%char = false -> starts f (ip ++ fr ++ ex) = false).
    { intros f F1 F2. destruct ip as [|c ip]; [|destruct Dip; cbn; auto]. destruct Fr as [|ds D]; [|exact F2]. destruct Ne; easy. }
    unfold strToDouble. rewrite (skip_fwd ws).
    + rewrite (dec_sign_fwd sg z _ Sg) by (apply N1; [apply digit_no_sign | reflexivity]).
      rewrite (dec_digits_fwd ip 0 0 (fr ++ ex) Dip) by (destruct Fr; [exact X1 | reflexivity]).
      assert (Y : match fr ++ ex with String c t => if Ascii.eqb c "." then dec_digits (number 0 ip) 0 t else (number 0 ip, 0%nat, fr ++ ex) | EmptyString => (number 0 ip, 0%nat, fr ++ ex) end
                  = (number 0 (ip ++ fd), String.length fd, ex)).
      { destruct Fr as [|ds D].
        - rewrite sapp_nil. cbn [append String.length]. destruct ex as [|c t]; [reflexivity|]. cbn [starts] in X2. now rewrite X2.
        - cbn [append]. rewrite Ascii.eqb_refl, (dec_digits_fwd ds _ 0 ex D X1), number_app. reflexivity. }
      rewrite Y. cbn [plus]. destruct (Nat.eqb_spec (String.length ip + String.length fd) 0) as [Z|NZ].
      { exfalso. destruct Ne as [Ne|Ne]; apply Ne, length0; lia. }
      apply dec_exponent_iff in Ex. rewrite Ex. cbv beta zeta in Lt. apply limit_iff in Lt. unfold dec_value at 1. rewrite Lt. unfold dec_value. now destruct (z =? 1)%Z.
    + exact W.
    + destruct Sg; [|reflexivity|reflexivity]. cbn [append]. apply N1; [apply digit_no_space | reflexivity].
Qed.
