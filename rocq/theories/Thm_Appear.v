(** C81, C82: materials, visuals and collisions. *)
From Coq Require Import QArith String Ascii List Arith Lia Bool Reals.
From Verif Require Import Base Num Pose DataStructure Urdf Kin Decimal RealArith TinyXml
  Spec_Str Spec_Robot Spec_Urdf Pf_Str Pf_Read Appear Spec_Appear Pf_Appear Ex_Robot.
Import ListNotations.
Local Open Scope string_scope.

(** C81.  The looks of a robot never matter: whatever the material, visual and collision
    elements of a document contain, the constructor does what it does when it reads the
    kinematic elements alone. *)
Theorem C81_looks_never_matter :
  forall (A : Arith) tinyxml text, ctor_full tinyxml text = ctor tinyxml text.
Proof. intros A tinyxml text. unfold ctor_full, ctor. rewrite full_kinematics. reflexivity. Qed.
Print Assumptions C81_looks_never_matter.

(** Two documents with the same links, inertial data, joints and material names give the same
    model, however their visuals, collisions, colours and textures differ. *)
Theorem C81_same_model :
  forall (A : Arith) tinyxml text text' top top',
    text <> "" -> text' <> "" -> tinyxml text = Some top -> tinyxml text' = Some top' -> alike_kids "" top top' ->
    ctor_full tinyxml text = ctor_full tinyxml text'.
Proof.
  intros A tinyxml text text' top top' T T' E E' H. unfold ctor_full. rewrite !full_kinematics, E, E', (alike_parse top top' H).
  destruct text; [contradiction|]. destruct text'; [contradiction|]. reflexivity.
Qed.
Print Assumptions C81_same_model.

(** C82.  What the reader keeps of the looks: for every accepted document, each link has the
    visuals and collisions that its element shows, each visual has the material that the
    robot, an earlier visual or the visual itself defines under its name, and the materials
    of the model are those. *)
Theorem C82_looks_as_written :
  forall (A : Arith) top F, parseURDF_full (Some top) = Some F -> document_looks top (fm_links F) (fm_materials F).
Proof. intros. apply document_looks_of. assumption. Qed.
Print Assumptions C82_looks_as_written.

(** A visual or collision element denotes exactly what is written; an element that denotes
    nothing is not accepted. *)
Theorem C82_visual_elements : forall (A : Arith) x v, parseVisual x = Some v <-> visual_reads x v.
Proof. intros. apply visual_iff. Qed.
Print Assumptions C82_visual_elements.
Theorem C82_collision_elements : forall (A : Arith) x c, parseCollision x = Some c <-> collision_reads x c.
Proof. intros. apply collision_iff. Qed.
Print Assumptions C82_collision_elements.

(** A robot of two links.  The first has two visuals: one defines the material "skin", the
    other is a sphere of unreadable radius, so that the collision after it is lost.  The
    second link has a visual that refers to "skin" and one of the robot's own "steel", which
    it tries to redefine. *)
Definition sphere r := el "geometry" [] [XOther; el "sphere" [("radius", r)] []].
Definition paint n c := el "material" [("name", n)] [el "color" [("rgba", c)] []].
Definition looks_top : list xml :=
  [el "robot" [("name", "r")]
    [paint "steel" "0.5 0.5  0.5 1";
     el "link" [("name", "a")] [el "visual" [] [sphere "1"; paint "skin" "1 0 0 1"]; el "visual" [] [sphere "big"]; el "collision" [] [sphere "1"]];
     el "link" [("name", "b")] [el "visual" [("name", "v")] [sphere "2"; el "material" [("name", "skin")] []]; el "visual" [] [sphere "3"; paint "steel" "0 0 0 0"];
                                el "collision" [] [sphere "2"]]; 
     el "joint" [("name", "j"); ("type", "fixed")] [el "parent" [("link", "a")] []; el "child" [("link", "b")] []]]].
(** exact rational numbers, enough for a document without angles *)
Definition rationals : Arith := {|
  num := Q; lit := fun q => q; add := Qplus; sub := Qminus; mul := Qmult; div := Qdiv; opp := Qopp;
  nsqrt := fun x => x; nsin := fun x => x; ncos := fun _ => 1%Q; nasin := fun x => x; natan2 := fun y _ => y;
  nle := Qle_bool; nlt := fun a b => negb (Qle_bool b a); neq := Qeq_bool; str_to_double := strToDouble |}.
(** of every visual the material's name, the name and redness of the material found *)
Definition view (f : FLink (A := rationals)) : list (string * option (string * Z)) * bool * nat * bool :=
  (map (fun v => (vis_material_name v, option_map (fun m : @Material rationals => (mat_name m, Qnum (Qred (Qmult (@c_r rationals (mat_color m)) 10)))) (vis_material v))) (fl_visuals f), fl_visual f,
   List.length (fl_collisions f), fl_collision f).
Example C82_example :
  exists F, parseURDF_full (A := rationals) (Some looks_top) = Some F /\ map fst (fm_materials F) = ["skin"; "steel"] /\
    map (fun kf => (fst kf, view (snd kf))) (fm_links F) =
      [("a", ([("skin", Some ("skin", 10%Z))], false, 0%nat, false));
       ("b", ([("skin", Some ("skin", 10%Z)); ("steel", Some ("steel", 5%Z))], true, 1%nat, true))].
Proof.
  assert (X : option_map (fun F : @FModel rationals => (map fst (fm_materials F), map (fun kf => (fst kf, view (snd kf))) (fm_links F))) (parseURDF_full (Some looks_top)) =
    Some (["skin"; "steel"], [("a", ([("skin", Some ("skin", 10%Z))], false, 0%nat, false));
       ("b", ([("skin", Some ("skin", 10%Z)); ("steel", Some ("steel", 5%Z))], true, 1%nat, true))])) by (vm_compute; reflexivity).
  destruct (parseURDF_full (Some looks_top)) as [F|]; [|discriminate X]. exists F. split; [reflexivity|]. cbn [option_map] in X.
  revert X. generalize (map fst (fm_materials F)) (map (fun kf => (fst kf, view (snd kf))) (fm_links F)). intros a b X. injection X as -> ->. split; reflexivity.
Qed.

(** the hypotheses of C81: the same robot with a broken colour and without visuals *)
Definition bare_top : list xml :=
  [el "robot" [("name", "r")]
    [paint "steel" "2 -1"; el "link" [("name", "a")] []; XOther;
     el "link" [("name", "b")] [el "collision" [] []];
     el "joint" [("name", "j"); ("type", "fixed")] [el "parent" [("link", "a")] []; el "child" [("link", "b")] []]]].
Example C81_example : alike_kids "" looks_top bare_top.
Proof.
  assert (M : forall t x, match x with XElem u _ _ => existsb (String.eqb u) (used_inside t) = false | XOther => True end -> meaningless t x).
  { intros t x H u I (a & k & ->). rewrite <- not_true_iff_false in H. apply H. apply existsb_exists. exists u. split; [exact I|apply String.eqb_refl]. }
  unfold looks_top, bare_top, paint, el.
  apply ak_both; [constructor|constructor].
  apply ak_both. { constructor. apply ak_left; [apply M; reflexivity|]. apply ak_right; [apply M; reflexivity|]. constructor. }
  apply ak_both. { constructor. do 3 (apply ak_left; [apply M; reflexivity|]). constructor. }
  apply ak_right; [apply M; exact I|].
  apply ak_both. { constructor. do 3 (apply ak_left; [apply M; reflexivity|]). apply ak_right; [apply M; reflexivity|]. constructor. }
  apply ak_both; [|constructor]. constructor. apply ak_both; [constructor; constructor|]. apply ak_both; [constructor; constructor|]. constructor.
Qed.
