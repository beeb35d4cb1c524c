(** Lemmas for C81 and C82. *)
From Coq Require Import ZArith String Ascii List Bool Permutation.
From Verif Require Import Base Num Pose DataStructure Urdf Kin Spec_Str Spec_Robot Spec_Urdf Pf_Base Pf_Urdf Pf_Str Pf_Read Appear Spec_Appear.
Import ListNotations.
Local Open Scope string_scope.

Section P.
Context `{A : Arith}.

(** ** the kinematic part is that of Urdf.v *)

Lemma parseMaterial_name x : mat_name (snd (parseMaterial x)) = Pf_Read.mat_name x.
Proof.
  unfold parseMaterial, Pf_Read.mat_name. destruct (attribute "name" x); [|reflexivity].
  repeat (destruct (match first_child "color" x with None => _ | Some _ => _ end)). reflexivity.
Qed.
Lemma parseLink_full_link x : fl_link (snd (parseLink_full x)) = parseLink x.
Proof.
  unfold parseLink_full, parseLink. destruct (attribute "name" x); [|reflexivity]. destruct (first_child "inertial" x) as [i|]; cbn [option_map].
  - destruct (parseInertial i) as [[] d]; [|reflexivity]. destruct (parse_all parseVisual _) as [vs []]; [|reflexivity]. cbn [negb].
    destruct (parse_all parseCollision _) as [cs []]; reflexivity.
  - destruct (parse_all parseVisual _) as [vs []]; [|reflexivity]. cbn [negb]. destruct (parse_all parseCollision _) as [cs []]; reflexivity.
Qed.
Lemma assign_link_link l ms : fl_link (fst (assign_link l ms)) = fl_link l.
Proof.
  unfold assign_link. destruct (match fl_visual l with true => _ | false => _ end) as [vs ms1]. destruct (assign_visuals vs ms1). reflexivity.
Qed.

Definition klink (kl : string * FLink) : string * ULink := (fst kl, fl_link (snd kl)).
Lemma assoc_klink n l : assoc n (map klink l) = option_map fl_link (assoc n l).
Proof. induction l as [|[k f] l IH]; [reflexivity|]. cbn [map klink assoc fst snd]. destruct (String.eqb n k); [reflexivity|exact IH]. Qed.
Lemma insert_klink n f l : map klink (map_insert n f l) = map_insert n (fl_link f) (map klink l).
Proof.
  induction l as [|[k g] l IH]; [reflexivity|]. cbn [map klink map_insert fst snd].
  repeat match goal with |- context [if ?b then _ else _] => destruct b | |- context [match String.compare ?a ?b with _ => _ end] => destruct (String.compare a b) end;
  try reflexivity; cbn [map klink fst snd]; rewrite IH; reflexivity.
Qed.
Lemma parse_links_klink l : forall acc ms,
  option_map (fun r => map klink (fst r)) (parse_links_full l acc ms) = parse_links l (map klink acc).
Proof.
  induction l as [|x l IH]; intros acc ms; [reflexivity|]. cbn [parse_links_full parse_links]. destruct (parseLink_full x) as [ok lk] eqn:E.
  pose proof (parseLink_full_link x) as K. rewrite E in K. cbn [snd] in K. rewrite <- K, assoc_klink. destruct (assoc _ acc); [reflexivity|]. cbn [option_map].
  destruct (assign_link lk ms) as [lk' ms'] eqn:E2. pose proof (assign_link_link lk ms) as K2. rewrite E2 in K2. cbn [fst] in K2.
  rewrite IH, insert_klink, K2. reflexivity.
Qed.

Lemma assoc_insert {B} n (b : B) l k : assoc n l = None -> assoc k (map_insert n b l) = if String.eqb k n then Some b else assoc k l.
Proof.
  induction l as [|[k0 b0] l IH]; intros NI; cbn [map_insert].
  - cbn [assoc]. destruct (String.eqb k n); reflexivity.
  - cbn [assoc] in NI. destruct (String.eqb n k0) eqn:E0; [discriminate|].
    assert (D : k = n -> k = k0 -> False). { intros -> ->. rewrite String.eqb_refl in E0. discriminate. }
    assert (X : forall c : bool, assoc k (if c then (n, b) :: (k0, b0) :: l else (k0, b0) :: map_insert n b l) = if String.eqb k n then Some b else assoc k ((k0, b0) :: l)).
    { intros []; cbn [assoc]; [destruct (String.eqb k n); reflexivity|]. rewrite (IH NI).
      destruct (String.eqb k k0) eqn:E2; [|reflexivity]. destruct (String.eqb k n) eqn:E1; [|reflexivity]. apply String.eqb_eq in E1, E2. destruct (D E1 E2). }
    destruct (String.compare n k0) eqn:C; [|exact (X true)|exact (X false)].
    apply String.compare_eq_iff in C. subst k0. rewrite String.eqb_refl in E0. discriminate.
Qed.

Lemma parse_materials_ok l : forall acc seen, (forall n, In n seen <-> assoc n acc <> None) ->
  match parse_materials l acc with Some _ => true | None => false end = materials_ok seen l.
Proof.
  induction l as [|x l IH]; intros acc seen S; [reflexivity|]. cbn [parse_materials materials_ok]. destruct (parseMaterial x) as [b m] eqn:E.
  pose proof (parseMaterial_name x) as K. rewrite E in K. cbn [snd] in K. change (match attribute "name" x with Some s => s | None => "" end) with (Pf_Read.mat_name x). rewrite K.
  set (n := Pf_Read.mat_name x).
  assert (X : existsb (String.eqb n) seen = match assoc n acc with Some _ => true | None => false end).
  { apply eq_true_iff_eq. rewrite existsb_exists. split.
    - intros (k & I & Ek). apply String.eqb_eq in Ek. subst k. apply S in I. destruct (assoc n acc); [reflexivity|contradiction].
    - intros Y. exists n. split; [|apply String.eqb_refl]. apply S. destruct (assoc n acc); discriminate. }
  rewrite X. destruct (assoc n acc) as [?|] eqn:Ea; [reflexivity|]. apply IH. intros k. rewrite (assoc_insert _ _ _ _ Ea). cbn [In]. rewrite S.
  destruct (String.eqb k n) eqn:Ek.
  - apply String.eqb_eq in Ek. subst k. split; [discriminate|auto].
  - split; [intros [->|?]; [rewrite String.eqb_refl in Ek; discriminate|assumption]|auto].
Qed.

Theorem full_kinematics doc : option_map fm_mi (parseURDF_full doc) = parseURDF_dom doc.
Proof.
  unfold parseURDF_full, parseURDF_dom. destruct doc as [top|]; [|reflexivity]. destruct (hd_error _) as [r|]; [|reflexivity].
  destruct (attribute "name" r) as [nm|]; [|reflexivity]. destruct (negb _); [reflexivity|]. unfold parse_robot_kids_full, parse_robot_kids.
  rewrite <- (parse_materials_ok _ [] []) by (intros ?; cbn; tauto).
  destruct (parse_materials _ []) as [ms|]; [|reflexivity]. cbn [negb].
  pose proof (parse_links_klink (children "link" (x_kids r)) [] ms) as K. cbn [map] in K. rewrite <- K.
  destruct (parse_links_full _ [] ms) as [[fls ms']|]; [|reflexivity]. cbn [option_map fst].
  destruct fls as [|f fls]; [reflexivity|]. cbn [map]. destruct (parse_joints _ []) as [js|]; [|reflexivity].
  change (map (fun kl : string * FLink => (fst kl, fl_link (snd kl))) (f :: fls)) with (klink f :: map klink fls).
  destruct (initTree js _) as [ls|]; [|reflexivity]. destruct (initRoot ls); reflexivity.
Qed.

(** ** materials *)

Definition shade_ok (w : string) (d : num) : Prop := str_to_double w = Some d /\ nlt d n0 = false /\ nlt n1 d = false.
Lemma conv_color_filter l : conv_color l = conv_color (filter nonempty l).
Proof. induction l as [|[|c w] l IH]; cbn [filter nonempty conv_color]; auto. now rewrite IH. Qed.
Lemma conv_color_iff l : Forall (fun w => w <> "") l -> forall r, conv_color l = Some r <-> Forall2 shade_ok l r.
Proof.
  induction 1 as [|w l N F IH]; intros r.
  - split; [intros E; inversion E; constructor | intros H; inversion H; reflexivity].
  - destruct w as [|ch w]; [contradiction|]. cbn [conv_color]. split.
    + destruct (str_to_double (String ch w)) as [d|] eqn:Ed; [|discriminate]. destruct (nlt d n0 || nlt n1 d) eqn:R; [discriminate|]. apply orb_false_iff in R.
      destruct (conv_color l) as [t|] eqn:Et; [|discriminate]. intros E. inversion E. subst. constructor; [split; assumption|]. apply IH. reflexivity.
    + intros H. inversion H as [|? d ? t (H1 & H2 & H3) H4]; subst. rewrite H1, H2, H3. cbn [orb]. apply IH in H4. rewrite H4. reflexivity.
Qed.
Lemma shades_iff s l : shades s l <-> conv_color (split_string " "%char s) = Some l.
Proof.
  rewrite conv_color_filter. set (ws := filter nonempty (split_string " "%char s)).
  assert (F : Forall (fun w => w <> "") ws). { apply Forall_forall. intros w I. apply filter_In in I. destruct I as (_ & I). now destruct w. }
  rewrite (conv_color_iff ws F l). unfold shades. split.
  - intros (ws' & W & H). apply words_split in W. subst ws'. exact H.
  - intros H. exists ws. split; [apply words_split; reflexivity|exact H].
Qed.
Definition rgba_of (x : xml) : option string := match first_child "color" x with None => None | Some c => attribute "rgba" c end.
Definition texture_of (x : xml) : option string := match first_child "texture" x with None => None | Some t => attribute "filename" t end.
Lemma rgba_iff x s : rgba x s <-> rgba_of x = Some s.
Proof.
  unfold rgba, rgba_of. split.
  - intros (c & C & H). apply child_iff in C. apply has_attr_iff in H. rewrite C. exact H.
  - destruct (first_child "color" x) as [c|] eqn:E; [|discriminate]. intros H. exists c. split; [apply child_iff; exact E|apply has_attr_iff; exact H].
Qed.
Lemma texture_iff x s : texture x s <-> texture_of x = Some s.
Proof.
  unfold texture, texture_of. split.
  - intros (c & C & H). apply child_iff in C. apply has_attr_iff in H. rewrite C. exact H.
  - destruct (first_child "texture" x) as [c|] eqn:E; [|discriminate]. intros H. exists c. split; [apply child_iff; exact E|apply has_attr_iff; exact H].
Qed.
Definition color_of (x : xml) : bool * Color :=
  match rgba_of x with None => (false, color_clear) | Some s => match color_init s with None => (false, color_clear) | Some (_, c) => (true, c) end end.
Lemma parseMaterial_eq x : parseMaterial x =
  match attribute "name" x with
  | None => (false, mkMaterial "" "" color_clear)
  | Some n => (fst (color_of x) || match texture_of x with None => false | Some _ => true end,
               mkMaterial n (match texture_of x with None => "" | Some f => f end) (snd (color_of x)))
  end.
Proof.
  unfold parseMaterial, color_of, rgba_of, texture_of. destruct (attribute "name" x); [|reflexivity].
  destruct (first_child "color" x) as [c|]; [|reflexivity]. destruct (attribute "rgba" c); [|reflexivity]. destruct (color_init _) as [[? ?]|]; reflexivity.
Qed.

Lemma color_stored x c : snd (color_of x) = c <->
  (exists s r g b a, rgba x s /\ shades s [r; g; b; a] /\ c = mkColor r g b a) \/
  (c = black /\ forall s r g b a, rgba x s -> ~ shades s [r; g; b; a]).
Proof.
  unfold color_of. destruct (rgba_of x) as [s|] eqn:E.
  - unfold color_init. pose proof (shades_iff s) as SI. destruct (conv_color (split_string " "%char s)) as [l|] eqn:El.
    + assert (D : (exists r g b a, l = [r; g; b; a]) \/ ~ (exists r g b a, l = [r; g; b; a])).
      { destruct l as [|r [|g [|b [|a [|]]]]]; [right|right|right|right|left; repeat eexists|right]; intros (? & ? & ? & ? & X); discriminate X. }
      destruct D as [(r & g & b & a & ->)|D].
      * cbn [snd]. split.
        -- intros <-. left. exists s, r, g, b, a. split; [apply rgba_iff; exact E|]. split; [apply SI; reflexivity|reflexivity].
        -- intros [(s' & r' & g' & b' & a' & R & S & ->)|(-> & N)].
           ++ apply rgba_iff in R. rewrite E in R. injection R as <-. apply SI in S. injection S as -> -> -> ->. reflexivity.
           ++ exfalso. apply (N s r g b a); [apply rgba_iff; exact E|apply SI; reflexivity].
      * assert (X : match l with [r; g; b; a] => Some (true, mkColor r g b a) | _ => Some (false, color_clear) end = Some (false, color_clear)).
        { destruct l as [|r [|g [|b [|a [|]]]]]; try reflexivity. exfalso. apply D. repeat eexists. }
        rewrite X. cbn [snd]. split.
        -- intros <-. right. split; [reflexivity|]. intros s' r g b a R S. apply rgba_iff in R. rewrite E in R. injection R as <-. apply SI in S. injection S as ->. apply D. repeat eexists.
        -- intros [(s' & r' & g' & b' & a' & R & S & ->)|(-> & N)]; [|reflexivity]. exfalso. apply rgba_iff in R. rewrite E in R. injection R as <-. apply SI in S. injection S as ->. apply D. repeat eexists.
    + cbn [snd]. split.
      * intros <-. right. split; [reflexivity|]. intros s' r g b a R S. apply rgba_iff in R. rewrite E in R. injection R as <-. apply SI in S. discriminate S.
      * intros [(s' & r' & g' & b' & a' & R & S & ->)|(-> & N)]; [|reflexivity]. exfalso. apply rgba_iff in R. rewrite E in R. injection R as <-. apply SI in S. discriminate S.
  - cbn [snd]. split.
    + intros <-. right. split; [reflexivity|]. intros s r g b a R. apply rgba_iff in R. rewrite E in R. discriminate R.
    + intros [(s & r & g & b & a & R & _)|(-> & _)]; [|reflexivity]. exfalso. apply rgba_iff in R. rewrite E in R. discriminate R.
Qed.
Lemma color_defined x : fst (color_of x) = true <-> exists s l, rgba x s /\ shades s l.
Proof.
  unfold color_of. destruct (rgba_of x) as [s|] eqn:E.
  - unfold color_init. pose proof (shades_iff s) as SI. destruct (conv_color (split_string " "%char s)) as [l|] eqn:El.
    + split.
      * intros _. exists s, l. split; [apply rgba_iff; exact E|apply SI; reflexivity].
      * intros _. destruct l as [|r [|g [|b [|a [|]]]]]; reflexivity.
    + split; [discriminate|]. intros (s' & l & R & S). apply rgba_iff in R. rewrite E in R. injection R as <-. apply SI in S. discriminate S.
  - split; [discriminate|]. intros (s' & l & R & S). apply rgba_iff in R. rewrite E in R. discriminate R.
Qed.

Theorem material_stored_iff x m : snd (parseMaterial x) = m <-> material_stored x m.
Proof.
  rewrite parseMaterial_eq. unfold material_stored. rewrite no_attr_iff, has_attr_iff. destruct (attribute "name" x) as [n|] eqn:E; cbn [snd].
  - split.
    + intros <-. right. cbn [mat_name mat_texture mat_color]. split; [reflexivity|]. split.
      * destruct (texture_of x) as [f|] eqn:T; [left; apply texture_iff; exact T|right]. split; [reflexivity|]. intros f F. apply texture_iff in F. congruence.
      * apply color_stored. reflexivity.
    + intros [[X _]|(N & T & C)]; [discriminate X|]. apply color_stored in C. injection N as ->. destruct m as [n t c]. cbn [mat_name mat_texture mat_color] in *. subst c. f_equal.
      destruct T as [T|(-> & T)]; [apply texture_iff in T; rewrite T; reflexivity|]. destruct (texture_of x) as [f|] eqn:F; [|reflexivity]. exfalso. apply (T f). apply texture_iff. exact F.
  - split; [intros <-; left; split; reflexivity|]. intros [[_ ->]|(X & _)]; [reflexivity|discriminate X].
Qed.
Lemma material_defined_iff x : fst (parseMaterial x) = true <-> material_defined x.
Proof.
  rewrite parseMaterial_eq. unfold material_defined. destruct (attribute "name" x) as [n|] eqn:E; cbn [fst].
  - rewrite orb_true_iff, color_defined. split.
    + intros H. split; [exists n; apply has_attr_iff; exact E|]. destruct H as [H|H]; [right; exact H|left]. destruct (texture_of x) as [f|] eqn:T; [|discriminate H]. exists f. apply texture_iff. exact T.
    + intros (_ & [(f & T)|H]); [right; apply texture_iff in T; rewrite T; reflexivity|left; exact H].
  - split; [discriminate|]. intros ((n & N) & _). apply has_attr_iff in N. congruence.
Qed.

(** ** shapes *)

Lemma only_shape_iff x s : only_shape x s <-> first_element x = Some s.
Proof.
  unfold only_shape, first_element. split.
  - intros (kids & before & after & I & -> & F & N). apply inside_iff in I. rewrite <- I. clear I. induction F as [|e l -> F IH]; [|exact IH]. cbn. destruct s; [reflexivity|contradiction].
  - intros H. exists (x_kids x). remember (x_kids x) as kids eqn:K.
    assert (X : exists before after, kids = (before ++ s :: after)%list /\ Forall (fun e => e = XOther) before /\ s <> XOther).
    { clear K. induction kids as [|e kids IH]; [discriminate H|]. cbn [filter] in H. destruct e as [t a k|].
      - injection H as <-. exists [], kids. split; [reflexivity|]. split; [constructor|discriminate].
      - destruct (IH H) as (b & a & -> & F & N). exists (XOther :: b), a. split; [reflexivity|]. split; [constructor; [reflexivity|exact F]|exact N]. }
    destruct X as (b & a & -> & F & N). exists b, a. split; [apply inside_iff; exact K|]. auto.
Qed.
Lemma tagged_of t s : tagged t s <-> s <> XOther /\ tag_of s = t.
Proof. unfold tagged. destruct s as [t' a k|]; cbn; split; [intros (? & ? & [= -> _ _]); split; [discriminate|reflexivity]|intros (_ & ->); eauto|intros (? & ? & X); discriminate X|intros ([] & _); reflexivity]. Qed.

Lemma parseSphere_iff s g : parseSphere s = Some g <-> exists r, a_number s "radius" r /\ g = Sphere r.
Proof.
  unfold parseSphere, a_number. split.
  - destruct (attribute "radius" s) as [w|] eqn:E; [|discriminate]. destruct (str_to_double w) as [r|] eqn:E2; [|discriminate]. intros [= <-]. exists r. split; [|reflexivity]. exists w. split; [apply has_attr_iff; exact E|exact E2].
  - intros (r & (w & H & E2) & ->). apply has_attr_iff in H. rewrite H, E2. reflexivity.
Qed.
Lemma parseBox_iff s g : parseBox s = Some g <-> exists str v, has_attr s "size" str /\ triple str v /\ g = Box v.
Proof.
  unfold parseBox. split.
  - destruct (attribute "size" s) as [w|] eqn:E; [|discriminate]. destruct (v_init w) as [r|] eqn:E2; [|discriminate]. intros [= <-]. exists w, r. split; [apply has_attr_iff; exact E|]. split; [apply triple_iff; exact E2|reflexivity].
  - intros (w & v & H & T & ->). apply has_attr_iff in H. apply triple_iff in T. rewrite H, T. reflexivity.
Qed.
Lemma parseCylinder_iff s g : parseCylinder s = Some g <-> exists l r, a_number s "length" l /\ a_number s "radius" r /\ g = Cylinder l r.
Proof.
  unfold parseCylinder, a_number. split.
  - destruct (attribute "length" s) as [w|] eqn:E; [|discriminate]. destruct (attribute "radius" s) as [w'|] eqn:E'; [|discriminate].
    destruct (str_to_double w) as [l|] eqn:E2; [|discriminate]. destruct (str_to_double w') as [r|] eqn:E3; [|discriminate]. intros [= <-]. exists l, r.
    split; [exists w; split; [apply has_attr_iff; exact E|exact E2]|]. split; [exists w'; split; [apply has_attr_iff; exact E'|exact E3]|reflexivity].
  - intros (l & r & (w & H & E2) & (w' & H' & E3) & ->). apply has_attr_iff in H, H'. rewrite H, H', E2, E3. reflexivity.
Qed.
Lemma parseMesh_iff s g : parseMesh s = Some g <-> exists f v, has_attr s "filename" f /\
  ((no_attr s "scale" /\ v = V3 n1 n1 n1) \/ (exists str, has_attr s "scale" str /\ triple str v)) /\ g = Mesh f v.
Proof.
  unfold parseMesh. split.
  - destruct (attribute "filename" s) as [f|] eqn:E; [|discriminate]. destruct (attribute "scale" s) as [w|] eqn:E2.
    + destruct (v_init w) as [v|] eqn:E3; [|discriminate]. intros [= <-]. exists f, v. split; [apply has_attr_iff; exact E|]. split; [|reflexivity]. right. exists w. split; [apply has_attr_iff; exact E2|apply triple_iff; exact E3].
    + intros [= <-]. exists f, (V3 n1 n1 n1). split; [apply has_attr_iff; exact E|]. split; [|reflexivity]. left. split; [apply no_attr_iff; exact E2|reflexivity].
  - intros (f & v & H & [(N & ->)|(w & W & T)] & ->); apply has_attr_iff in H; rewrite H.
    + apply no_attr_iff in N. rewrite N. reflexivity.
    + apply has_attr_iff in W. apply triple_iff in T. rewrite W, T. reflexivity.
Qed.

Definition parse_shape (s : xml) : option Geometry :=
  if String.eqb (tag_of s) "sphere" then parseSphere s
  else if String.eqb (tag_of s) "box" then parseBox s
  else if String.eqb (tag_of s) "cylinder" then parseCylinder s
  else if String.eqb (tag_of s) "mesh" then parseMesh s
  else None.
Lemma shape_iff s g : s <> XOther -> (parse_shape s = Some g <-> shape_reads s g).
Proof.
  intros N. unfold parse_shape.
  assert (T : forall t, tagged t s <-> tag_of s = t) by (intros t; rewrite tagged_of; tauto).
  split.
  - destruct (String.eqb (tag_of s) "sphere") eqn:E1; [apply String.eqb_eq, T in E1; intros H; apply parseSphere_iff in H; destruct H as (r & H & ->); constructor; assumption|].
    destruct (String.eqb (tag_of s) "box") eqn:E2; [apply String.eqb_eq, T in E2; intros H; apply parseBox_iff in H; destruct H as (w & r & H & H' & ->); econstructor; eassumption|].
    destruct (String.eqb (tag_of s) "cylinder") eqn:E3; [apply String.eqb_eq, T in E3; intros H; apply parseCylinder_iff in H; destruct H as (l & r & H & H' & ->); constructor; assumption|].
    destruct (String.eqb (tag_of s) "mesh") eqn:E4; [apply String.eqb_eq, T in E4; intros H; apply parseMesh_iff in H; destruct H as (f & v & H & H' & ->); constructor; assumption|discriminate].
  - intros [r E H|v w E H H'|l r E H H'|f v E H H']; apply T in E; rewrite E; cbn [String.eqb Ascii.eqb Bool.eqb].
    + apply parseSphere_iff. eauto.
    + apply parseBox_iff. eauto.
    + apply parseCylinder_iff. eauto.
    + apply parseMesh_iff. eauto.
Qed.
Lemma geometry_iff x g : parseGeometry (first_child "geometry" x) = Some g <-> geometry_reads x g.
Proof.
  unfold geometry_reads. split.
  - destruct (first_child "geometry" x) as [e|] eqn:E; [|discriminate]. cbn [parseGeometry]. destruct (first_element e) as [s|] eqn:E2; [|discriminate].
    intros H. exists e, s. split; [apply child_iff; exact E|]. apply only_shape_iff in E2. split; [exact E2|]. apply shape_iff; [|exact H]. destruct E2 as (? & ? & ? & _ & _ & _ & N). exact N.
  - intros (e & s & C & O & H). apply child_iff in C. rewrite C. assert (N : s <> XOther) by (destruct O as (? & ? & ? & _ & _ & _ & N); exact N).
    apply only_shape_iff in O. cbn [parseGeometry]. rewrite O. apply shape_iff in H; [exact H|exact N].
Qed.

(** ** visuals and collisions *)

Lemma origin_iff x P : origin_or_none x P <-> parse_origin x = Some P.
Proof. exact (origin_or_none_iff x P). Qed.
Lemma name_iff x n : name_of x n <-> name_or_empty x = n.
Proof. exact (material_name_iff x n). Qed.

Theorem visual_iff x v : parseVisual x = Some v <-> visual_reads x v.
Proof.
  unfold visual_reads. rewrite origin_iff, <- geometry_iff, name_iff. unfold parseVisual. destruct v as [o g n mn m]. cbn [vis_origin vis_geometry vis_name vis_material_name vis_material].
  destruct (parse_origin x) as [o'|]; [|split; [discriminate|intros (X & _); discriminate X]].
  destruct (parseGeometry _) as [g'|]; [|split; [discriminate|intros (_ & X & _); discriminate X]].
  destruct (first_child "material" x) as [e|] eqn:E.
  - destruct (attribute "name" e) as [k|] eqn:K.
    + pose proof (material_defined_iff e) as DI. pose proof (material_stored_iff e) as SI. destruct (parseMaterial e) as [ok d]. cbn [fst snd] in DI, SI. split.
      * intros H. injection H as -> -> -> -> <-. repeat (split; [reflexivity|]). right. exists e. split; [apply child_iff; exact E|]. split; [apply has_attr_iff; exact K|].
        destruct ok; [left|right].
        -- split; [apply DI; reflexivity|]. exists d. split; [apply SI; reflexivity|reflexivity].
        -- split; [|reflexivity]. intros D. apply DI in D. discriminate D.
      * intros (H1 & H2 & H3 & [(C & _)|(e' & C & N & H)]).
        -- apply no_child_iff in C. congruence.
        -- apply child_iff in C. rewrite E in C. injection C as <-. apply has_attr_iff in N. rewrite K in N. injection N as ->. injection H1 as ->. injection H2 as ->. rewrite H3. f_equal. f_equal.
           destruct H as [(D & d' & S & ->)|(D & ->)].
           ++ apply DI in D. subst ok. apply SI in S. congruence.
           ++ destruct ok; [|reflexivity]. exfalso. apply D, DI. reflexivity.
    + split; [discriminate|]. intros (_ & _ & _ & [(C & _)|(e' & C & N & H)]).
      * apply no_child_iff in C. congruence.
      * apply child_iff in C. rewrite E in C. injection C as <-. apply has_attr_iff in N. congruence.
  - split.
    + intros H. injection H as -> -> -> <- <-. repeat (split; [reflexivity|]). left. split; [apply no_child_iff; exact E|]. auto.
    + intros (H1 & H2 & H3 & [(C & -> & ->)|(e' & C & _)]); [congruence|]. apply child_iff in C. congruence.
Qed.
Theorem collision_iff x c : parseCollision x = Some c <-> collision_reads x c.
Proof.
  unfold collision_reads. rewrite origin_iff, <- geometry_iff, name_iff. unfold parseCollision. destruct c as [o g n]. cbn [col_origin col_geometry col_name].
  destruct (parse_origin x) as [o'|]; [|split; [discriminate|intros (X & _); discriminate X]].
  destruct (parseGeometry _) as [g'|]; [|split; [discriminate|intros (_ & X & _); discriminate X]].
  split; [intros H; injection H as -> -> ->; auto|]. intros (H1 & H2 & H3). congruence.
Qed.

Lemma parse_all_iff {B} (f : xml -> option B) reads : (forall x b, f x = Some b <-> reads x b) ->
  forall l bs ok, parse_all f l = (bs, ok) <-> read_until reads l bs ok.
Proof.
  intros F. induction l as [|x l IH]; intros bs ok; cbn [parse_all].
  - split; [intros H; injection H as <- <-; constructor|inversion 1; reflexivity].
  - destruct (f x) as [b|] eqn:E.
    + destruct (parse_all f l) as [r k] eqn:P. split.
      * intros H. injection H as <- <-. constructor; [apply F; exact E|]. apply IH. reflexivity.
      * inversion 1 as [|? ? N|? b' ? bs' ? R H']; subst.
        -- exfalso. apply (N b), F. exact E.
        -- apply F in R. apply IH in H'. congruence.
    + split.
      * intros H. injection H as <- <-. constructor. intros b R. apply F in R. congruence.
      * inversion 1 as [|? ? N|? b' ? bs' ? R H']; subst; [reflexivity|]. apply F in R. congruence.
Qed.

(** ** links *)

Definition looks_of (f : FLink) : Looks := mkLooks (ul_name (fl_link f)) (fl_visuals f) (fl_visual f) (fl_collisions f) (fl_collision f).
Lemma is_set_of {B} (l : list B) : is_set l (match l with [] => false | _ => true end).
Proof. unfold is_set. destruct l; split; try discriminate; try contradiction; reflexivity. Qed.
Lemma is_set_det {B} (l : list B) b : is_set l b -> b = match l with [] => false | _ => true end.
Proof. unfold is_set. destruct l, b; intros [H1 H2]; try reflexivity; [exfalso; exact (H1 eq_refl eq_refl)|]. exfalso. discriminate (H2 ltac:(discriminate)). Qed.

Theorem link_looks_iff x l : looks_of (snd (parseLink_full x)) = l <-> link_looks x l.
Proof.
  pose proof (parse_all_iff parseVisual visual_reads visual_iff) as VI. pose proof (parse_all_iff parseCollision collision_reads collision_iff) as CI.
  assert (IN : forall n, attribute "name" x = Some n ->
    ((exists e i, first_child "inertial" x = Some e /\ parseInertial e = (false, i)) \/
     (match option_map parseInertial (first_child "inertial" x) with Some (false, _) => False | _ => True end /\ forall e, child x "inertial" e -> exists i, inertial_reads e i))).
  { intros n _. destruct (first_child "inertial" x) as [e|] eqn:E; cbn [option_map].
    - destruct (parseInertial e) as [[] i] eqn:P.
      + right. split; [exact I|]. intros e' C. apply child_iff in C. rewrite E in C. injection C as <-. exists i. apply inertial_reads_iff. exact P.
      + left. exists e, i. auto.
    - right. split; [exact I|]. intros e' C. apply child_iff in C. congruence. }
  unfold parseLink_full. destruct (attribute "name" x) as [n|] eqn:E.
  - destruct (IN n eq_refl) as [(e & i & C & P)|(NB & G)]; clear IN.
    + rewrite C. cbn [option_map]. rewrite P. cbn [snd looks_of fl_link fl_visuals fl_visual fl_collisions fl_collision ul_name].
      assert (M : malformed e) by (apply malformed_iff; rewrite P; reflexivity). assert (C' : child x "inertial" e) by (apply child_iff; exact C). split.
      * intros <-. unfold looks_of. cbn. eapply ll_inertial; [apply has_attr_iff; exact E|exact C'|exact M].
      * assert (W : forall P : Prop, (forall e, child x "inertial" e -> exists i, inertial_reads e i) -> P).
        { intros Q G. exfalso. destruct (G e C') as (j & R). exact (M j R). }
        inversion 1 as [N|k e' N|? ? ? ? ? G|? ? ? ? ? ? ? ? G|? ? ? ? ? ? ? ? ? G]; subst.
        -- apply no_attr_iff in N. congruence.
        -- apply has_attr_iff in N. rewrite E in N. injection N as ->. reflexivity.
        -- exact (W _ G).
        -- exact (W _ G).
        -- exact (W _ G).
    + set (lk := mkULink n (option_map snd (option_map parseInertial (first_child "inertial" x))) None None []).
      assert (NM : forall e, child x "inertial" e -> malformed e -> False). { intros e C M. destruct (G e C) as (i & R). exact (M i R). }
      destruct (parse_all parseVisual (children "visual" (x_kids x))) as [vs okv] eqn:V.
      destruct (parse_all parseCollision (children "collision" (x_kids x))) as [cs okc] eqn:K.
      set (body := if negb okv then (false, mkFLink lk false vs false []) else
          if negb okc then (false, mkFLink lk (match vs with [] => false | _ => true end) vs false cs) else
          (true, mkFLink lk (match vs with [] => false | _ => true end) vs (match cs with [] => false | _ => true end) cs)).
      match goal with |- looks_of (snd ?t) = _ <-> _ => assert (X : t = body) end.
      { destruct (option_map parseInertial (first_child "inertial" x)) as [[[] ?]|]; [reflexivity|contradiction NB|reflexivity]. }
      rewrite X. clear X. unfold body, looks_of.
      assert (HN : has_attr x "name" n) by (apply has_attr_iff; exact E).
      assert (HI : inside x (x_kids x)) by (apply inside_iff; reflexivity).
      assert (HV : elements "visual" (x_kids x) (children "visual" (x_kids x))) by (apply elements_iff; reflexivity).
      assert (HC : elements "collision" (x_kids x) (children "collision" (x_kids x))) by (apply elements_iff; reflexivity).
      split.
      * intros <-. destruct okv; cbn [negb snd fl_link fl_visuals fl_visual fl_collisions fl_collision ul_name lk].
        -- destruct okc; cbn [negb snd fl_link fl_visuals fl_visual fl_collisions fl_collision ul_name lk].
           ++ eapply ll_all; eauto using is_set_of. { apply VI. exact V. } { apply CI. exact K. }
           ++ eapply ll_collision; eauto using is_set_of. { apply VI. exact V. } { apply CI. exact K. }
        -- eapply ll_visual; eauto. apply VI. exact V.
      * assert (UV : forall kids vx vs' o, inside x kids -> elements "visual" kids vx -> read_until visual_reads vx vs' o -> (vs', o) = (vs, okv)).
        { intros kids vx vs' o I0 E0 R. apply inside_iff in I0. subst kids. apply elements_iff in E0. subst vx. apply VI in R. congruence. }
        assert (UC : forall kids vx vs' o, inside x kids -> elements "collision" kids vx -> read_until collision_reads vx vs' o -> (vs', o) = (cs, okc)).
        { intros kids vx vs' o I0 E0 R. apply inside_iff in I0. subst kids. apply elements_iff in E0. subst vx. apply CI in R. congruence. }
        assert (UN : forall n', has_attr x "name" n' -> n' = n) by (intros n' N; apply has_attr_iff in N; congruence).
        destruct 1 as [N|n' e N C M|n' kids vx vs' N G' I0 E0 R|n' kids vx vs' bv cx cs' N G' I0 E0 R S E1 R1|n' kids vx vs' bv cx cs' bc N G' I0 E0 R S E1 R1 S1].
        -- apply no_attr_iff in N. congruence.
        -- destruct (NM e C M).
        -- rewrite (UN _ N). pose proof (UV _ _ _ _ I0 E0 R) as Y. injection Y as -> <-. reflexivity.
        -- rewrite (UN _ N). pose proof (UV _ _ _ _ I0 E0 R) as Y. pose proof (UC _ _ _ _ I0 E1 R1) as Y1. apply is_set_det in S. injection Y as -> <-. injection Y1 as -> <-. subst bv. reflexivity.
        -- rewrite (UN _ N). pose proof (UV _ _ _ _ I0 E0 R) as Y. pose proof (UC _ _ _ _ I0 E1 R1) as Y1. apply is_set_det in S. apply is_set_det in S1. injection Y as -> <-. injection Y1 as -> <-. subst bv bc. reflexivity.
  - clear IN. cbn. split.
    + intros <-. apply ll_nameless. apply no_attr_iff. exact E.
    + assert (NN : forall n, ~ has_attr x "name" n) by (intros n N; apply has_attr_iff in N; congruence).
      destruct 1 as [N|n' e N|n' ? ? ? N|n' ? ? ? ? ? ? N|n' ? ? ? ? ? ? ? N]; [reflexivity|destruct (NN _ N)..].
Qed.

(** ** materials of visuals *)

Definition named (v : Visual) : Prop := forall m, vis_material v = Some m -> mat_name m = vis_material_name v.
Lemma parseVisual_named x v : parseVisual x = Some v -> named v.
Proof.
  unfold parseVisual. destruct (parse_origin x); [|discriminate]. destruct (parseGeometry _); [|discriminate].
  destruct (first_child "material" x) as [e|]; [|intros [= <-] m; discriminate].
  destruct (attribute "name" e) as [k|] eqn:K; [|discriminate]. pose proof (parseMaterial_name e) as N. unfold Pf_Read.mat_name in N. rewrite K in N.
  destruct (parseMaterial e) as [[] d]; intros [= <-] m; [|discriminate]. intros [= <-]. exact N.
Qed.
Lemma parse_all_in {B} (f : xml -> option B) l : forall b, In b (fst (parse_all f l)) -> exists x, f x = Some b.
Proof.
  induction l as [|x l IH]; intros b; cbn [parse_all]; [intros []|]. destruct (f x) as [c|] eqn:E; [|intros []].
  destruct (parse_all f l) as [r k]. intros [<-|I]; [exists x; exact E|apply IH; exact I].
Qed.
Lemma parseLink_named x : Forall named (fl_visuals (snd (parseLink_full x))).
Proof.
  apply Forall_forall. intros v I.
  assert (X : In v (fst (parse_all parseVisual (children "visual" (x_kids x))))).
  { unfold parseLink_full in I. destruct (attribute "name" x); [|destruct I].
    destruct (option_map parseInertial (first_child "inertial" x)) as [[[] ?]|]; [|destruct I|];
    destruct (parse_all parseVisual _) as [vs []]; cbn [negb] in I; try exact I; destruct (parse_all parseCollision _) as [cs []]; exact I. }
  apply parse_all_in in X. destruct X as (y & Y). exact (parseVisual_named _ _ Y).
Qed.

Section Resolve.
Variable defs : list (string * Material).
Definition known (ms : list (string * Material)) (E : list Visual) : Prop :=
  forall n, n <> "" -> assoc n ms = match assoc n defs with Some m => Some m | None => first_inline n E end.

Lemma first_inline_app n E E' : first_inline n (E ++ E') = match first_inline n E with Some m => Some m | None => first_inline n E' end.
Proof.
  induction E as [|v E IH]; [reflexivity|]. cbn [app first_inline]. destruct (String.eqb _ n); [|exact IH]. destruct (vis_material v); [reflexivity|exact IH].
Qed.
Lemma with_same v : with_material (vis_material v) v = v.
Proof. destruct v. reflexivity. Qed.

Lemma assignMaterial_spec ms E v : known ms E -> named v ->
  exists ms' b, assignMaterial v ms = (with_material (resolved defs E v) v, ms', b) /\ known ms' (E ++ [v]) /\
    assignMaterial (with_material (resolved defs E v) v) ms' = (with_material (resolved defs E v) v, ms', b).
Proof.
  intros K N. unfold resolved. destruct (vis_material_name v) as [|c s] eqn:En.
  - cbn [String.eqb]. rewrite with_same. unfold assignMaterial. rewrite En. exists ms, true. split; [reflexivity|]. split; [|reflexivity].
    intros n Hn. rewrite (K n Hn), first_inline_app. destruct (assoc n defs); [reflexivity|]. cbn [first_inline]. rewrite En.
    destruct (String.eqb "" n) eqn:X; [apply String.eqb_eq in X; congruence|]. destruct (first_inline n E); reflexivity.
  - set (n := String c s) in *. assert (Nn : n <> "") by discriminate. change (String.eqb n "") with false. cbn iota.
    assert (A1 : forall w ms, vis_material_name w = n -> assignMaterial w ms =
      match assoc n ms with
      | Some m => (set_material m w, ms, true)
      | None => match vis_material w with Some m => (w, map_insert (mat_name m) m ms, true) | None => (w, ms, false) end
      end). { intros w ms0 Hw. unfold assignMaterial. rewrite Hw. reflexivity. }
    assert (FI : first_inline n (E ++ [v]) = match first_inline n E with Some m => Some m | None => vis_material v end).
    { rewrite first_inline_app. destruct (first_inline n E); [reflexivity|]. cbn [first_inline]. rewrite En, String.eqb_refl. destruct (vis_material v); reflexivity. }
    rewrite FI. assert (AN := K n Nn).
    (* other names are not affected *)
    assert (OT : forall k, k <> n -> first_inline k (E ++ [v]) = first_inline k E).
    { intros k Hk. rewrite first_inline_app. destruct (first_inline k E); [reflexivity|]. cbn [first_inline]. rewrite En. destruct (String.eqb n k) eqn:X; [apply String.eqb_eq in X; congruence|reflexivity]. }
    rewrite (A1 v ms En). destruct (assoc n ms) as [m|] eqn:AM.
    + assert (R : match assoc n defs with Some m => Some m | None => match first_inline n E with Some m => Some m | None => vis_material v end end = Some m).
      { destruct (assoc n defs); [symmetry; exact AN|]. rewrite <- AN. reflexivity. }
      rewrite R. exists ms, true. split; [reflexivity|]. split.
      * intros k Hk. rewrite (K k Hk). destruct (String.eqb k n) eqn:X.
        -- apply String.eqb_eq in X. subst k. rewrite <- AN, FI. destruct (assoc n defs); [exact AN|]. rewrite <- AN. reflexivity.
        -- rewrite OT; [reflexivity|]. intros ->. rewrite String.eqb_refl in X. discriminate.
      * rewrite (A1 (with_material (Some m) v) ms En), AM. reflexivity.
    + destruct (assoc n defs) as [?|] eqn:AD; [discriminate AN|]. rewrite <- AN. destruct (vis_material v) as [m|] eqn:VM.
      * assert (MN : mat_name m = n) by (rewrite (N m VM); exact En). rewrite MN. exists (map_insert n m ms), true.
        assert (W : with_material (Some m) v = v) by (rewrite <- VM; apply with_same). rewrite W. split; [reflexivity|]. split.
        -- intros k Hk. rewrite (assoc_insert _ _ _ _ AM). destruct (String.eqb k n) eqn:X.
           ++ apply String.eqb_eq in X. subst k. rewrite AD, FI, <- AN. reflexivity.
           ++ rewrite OT; [apply (K k Hk)|]. intros ->. rewrite String.eqb_refl in X. discriminate.
        -- rewrite (A1 v _ En), (assoc_insert _ _ _ _ AM), String.eqb_refl. f_equal. f_equal. unfold set_material. rewrite <- VM. destruct v. reflexivity.
      * assert (W : with_material None v = v) by (rewrite <- VM; apply with_same). rewrite W. exists ms, false. split; [reflexivity|]. split.
        -- intros k Hk. rewrite (K k Hk). destruct (String.eqb k n) eqn:X.
           ++ apply String.eqb_eq in X. subst k. rewrite AD, FI, <- AN. reflexivity.
           ++ rewrite OT; [reflexivity|]. intros ->. rewrite String.eqb_refl in X. discriminate.
        -- rewrite (A1 v ms En), AM, VM. reflexivity.
Qed.

Lemma assign_visuals_spec vs : forall ms E, known ms E -> Forall named vs ->
  exists ms', assign_visuals vs ms = (painted defs E vs, ms') /\ known ms' (E ++ vs).
Proof.
  induction vs as [|v vs IH]; intros ms E K F.
  - exists ms. split; [reflexivity|]. rewrite app_nil_r. exact K.
  - inversion F as [|? ? N F']; subst. destruct (assignMaterial_spec ms E v K N) as (ms1 & b & A1 & K1 & _). destruct (IH ms1 _ K1 F') as (ms2 & A2 & K2).
    exists ms2. cbn [assign_visuals painted]. rewrite A1, A2. split; [reflexivity|]. rewrite <- app_assoc in K2. exact K2.
Qed.
Lemma assign_link_spec l ms E : known ms E -> Forall named (fl_visuals l) ->
  exists ms', assign_link l ms = (mkFLink (fl_link l) (fl_visual l) (painted defs E (fl_visuals l)) (fl_collision l) (fl_collisions l), ms') /\ known ms' (E ++ fl_visuals l).
Proof.
  intros K F. unfold assign_link. destruct (assign_visuals_spec _ ms E K F) as (ms' & A1 & K1).
  destruct (fl_visual l).
  - destruct (fl_visuals l) as [|v t] eqn:V.
    + exists ms'. rewrite A1. auto.
    + inversion F as [|? ? N F']; subst. destruct (assignMaterial_spec ms E v K N) as (ms1 & b & A2 & K2 & A3). rewrite A2. cbn [assign_visuals]. rewrite A3.
      destruct (assign_visuals_spec t ms1 _ K2 F') as (ms2 & A4 & K4). rewrite A4. exists ms2. split; [reflexivity|]. rewrite <- app_assoc in K4. exact K4.
  - exists ms'. rewrite A1. auto.
Qed.

Definition shows (x : xml) : Looks := looks_of (snd (parseLink_full x)).
Lemma parse_links_spec lx : forall acc ms E fls ms', known ms E -> parse_links_full lx acc ms = Some (fls, ms') ->
  (forall n f, assoc n acc = Some f -> assoc n fls = Some f) /\
  (forall n, assoc n fls <> None <-> assoc n acc <> None \/ In n (map lk_name (map shows lx))) /\
  (forall before l after, map shows lx = (before ++ l :: after)%list ->
     exists f, assoc (lk_name l) fls = Some f /\
       fl_visuals f = painted defs (E ++ concat (map lk_visuals before)) (lk_visuals l) /\ fl_visual f = lk_first_visual l /\
       fl_collisions f = lk_collisions l /\ fl_collision f = lk_first_collision l) /\
  known ms' (E ++ concat (map lk_visuals (map shows lx))).
Proof.
  induction lx as [|x lx IH]; intros acc ms E fls ms' K H; cbn [parse_links_full] in H.
  - injection H as <- <-. split; [auto|]. split; [intros n; cbn [map In]; tauto|]. split; [intros before l after X; destruct before; discriminate X|]. cbn [map concat]. rewrite app_nil_r. exact K.
  - pose proof (parseLink_named x) as F. cbn [map]. unfold shows at 1 3 5. destruct (parseLink_full x) as [ok lk]. cbn [snd] in *. set (n := ul_name (fl_link lk)) in *.
    destruct (assoc n acc) as [?|] eqn:NA; [discriminate H|]. destruct (assign_link_spec lk ms E K F) as (ms1 & A1 & K1). rewrite A1 in H.
    match type of H with parse_links_full _ (map_insert _ ?f _) _ = _ => set (g := f) in * end.
    destruct (IH _ _ _ _ _ K1 H) as (P1 & P2 & P3 & P4). split; [|split; [|split]].
    + intros k f Hk. apply P1. rewrite (assoc_insert _ _ _ _ NA). destruct (String.eqb k n) eqn:X; [|exact Hk]. apply String.eqb_eq in X. subst k. congruence.
    + intros k. rewrite P2, (assoc_insert _ _ _ _ NA). cbn [map In]. change (lk_name (looks_of lk)) with n. destruct (String.eqb k n) eqn:X.
      * apply String.eqb_eq in X. subst k. split; [auto|]. intros _. left. discriminate.
      * assert (n <> k) by (intros ->; rewrite String.eqb_refl in X; discriminate). tauto.
    + intros [|b before] l after Y; cbn [app] in Y.
      * injection Y as <- _. exists g. split; [apply P1; rewrite (assoc_insert _ _ _ _ NA); change (lk_name (looks_of lk)) with n; rewrite String.eqb_refl; reflexivity|].
        cbn [map concat]. rewrite app_nil_r. repeat split; reflexivity.
      * injection Y as <- Y. destruct (P3 _ _ _ Y) as (f & Q1 & Q2 & Q3). exists f. split; [exact Q1|]. split; [|exact Q3]. rewrite Q2. cbn [map concat]. rewrite <- app_assoc. reflexivity.
    + cbn [map concat]. rewrite <- app_assoc in P4. exact P4.
Qed.
End Resolve.

Definition def_of (x : xml) : string * Material := (mat_name (snd (parseMaterial x)), snd (parseMaterial x)).
Lemma parse_materials_spec mx : forall acc ms, parse_materials mx acc = Some ms ->
  forall n, assoc n ms = match assoc n acc with Some m => Some m | None => assoc n (map def_of mx) end.
Proof.
  induction mx as [|x mx IH]; intros acc ms H n; cbn [parse_materials] in H.
  - injection H as <-. cbn. destruct (assoc n acc); reflexivity.
  - cbn [map assoc]. unfold def_of at 1. destruct (parseMaterial x) as [b m]. cbn [snd fst]. destruct (assoc (mat_name m) acc) as [?|] eqn:NA; [discriminate H|].
    rewrite (IH _ _ H n), (assoc_insert _ _ _ _ NA). destruct (String.eqb n (mat_name m)) eqn:X; [|reflexivity]. apply String.eqb_eq in X. subst n. rewrite NA. reflexivity.
Qed.

Lemma assoc_in {B} n (l : list (string * B)) : assoc n l <> None <-> In n (map fst l).
Proof.
  induction l as [|[k b] l IH]; cbn; [tauto|]. destruct (String.eqb n k) eqn:X.
  - apply String.eqb_eq in X. subst. split; [auto|discriminate].
  - rewrite IH. split; [auto|]. intros [->|?]; [rewrite String.eqb_refl in X; discriminate|assumption].
Qed.

Theorem document_looks_of top F : parseURDF_full (Some top) = Some F -> document_looks top (fm_links F) (fm_materials F).
Proof.
  unfold parseURDF_full. destruct (children "robot" top) as [|r rest] eqn:ER; [discriminate|]. cbn [hd_error]. destruct (attribute "name" r) as [nm|]; [|discriminate].
  destruct (negb _); [discriminate|]. unfold parse_robot_kids_full. set (kids := x_kids r).
  destruct (parse_materials (children "material" kids) []) as [ms|] eqn:EM; [|discriminate].
  destruct (parse_links_full (children "link" kids) [] ms) as [[fls ms']|] eqn:EL; [|discriminate]. destruct fls as [|f0 fls0] eqn:EF; [discriminate|]. rewrite <- EF in *. clear EF.
  destruct (parse_joints _ []) as [js|]; [|discriminate]. destruct (initTree js _) as [ls|]; [|discriminate]. destruct (initRoot ls) as [rt|]; [|discriminate].
  intros H. injection H as <-. cbn [fm_links fm_materials]. set (defs := map def_of (children "material" kids)).
  assert (K : known defs ms []). { intros n Hn. rewrite (parse_materials_spec _ _ _ EM n). cbn [assoc first_inline]. fold defs. destruct (assoc n defs); reflexivity. }
  destruct (parse_links_spec defs _ _ _ _ _ _ K EL) as (_ & P2 & P3 & P4).
  exists r, rest, kids, (children "material" kids), (children "link" kids), defs, (map shows (children "link" kids)).
  split; [apply elements_iff; symmetry; exact ER|]. split; [apply inside_iff; reflexivity|]. split; [apply elements_iff; reflexivity|]. split.
  { unfold defs. clear. induction (children "material" kids) as [|x l IH]; cbn [map]; constructor; [|exact IH]. split; [reflexivity|]. apply material_stored_iff. reflexivity. }
  split; [apply elements_iff; reflexivity|]. split.
  { clear. induction (children "link" kids) as [|x l IH]; cbn [map]; constructor; [|exact IH]. apply link_looks_iff. reflexivity. }
  split; [intros n; rewrite <- assoc_in, P2; cbn [assoc]; tauto|]. split; [exact P3|exact P4].
Qed.
End P.
