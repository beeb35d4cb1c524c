(** The position rows do not depend on the rotation type (lemmas for C120), in any arithmetic. *)
From Coq Require Import String List Arith Lia Bool Classical.
From Verif Require Import Base Num Pose DataStructure Urdf Kin Wrapper Spec_Robot Spec_Hist Spec_Load Spec_Jac Spec_Mass
  Pf_Base Pf_Data Inv Pf_FK Pf_Frame Pf_Rp Rep Pf_Ops Pf_Name Pf_Ctor Pf_Reach Pf_Jac Pf_Safe Pf_Pose Pf_Local Pf_Hist Pf_Wrap Pf_Mass Pf_Wrap2 Pf_Total Pf_Batch.
Import ListNotations.
Local Open Scope m_scope.

Section Rows.
Context `{A : Arith}.

Lemma rows_3 rt : 3 <= jac_rows rt.
Proof. destruct rt; cbn; lia. Qed.
Lemma shape_top r c (J : mat) : 3 <= r -> has_shape r c J -> has_shape 3 c (firstn 3 J).
Proof. intros L (L1 & W). split; [rewrite firstn_length; lia|]. intros row I. apply W. rewrite <- (firstn_skipn 3 J); apply in_or_app; now left. Qed.
Lemma column_top c (J : mat) : column c (firstn 3 J) = firstn 3 (column c J).
Proof. unfold column. symmetry. apply firstn_map. Qed.
Lemma zeros_top rt : firstn 3 (zeros (jac_rows rt)) = zeros 3.
Proof. destruct rt; reflexivity. Qed.
Lemma geometric_top rt j E C : firstn 3 (geometric_column rt j E C) = geometric_column IGNORE j E C.
Proof. unfold geometric_column. destruct (uj_type j); destruct rt; reflexivity. Qed.
Lemma quotient_top rt b B E : firstn 3 (base_quotient rt b B E) = base_quotient IGNORE b B E.
Proof. unfold base_quotient. destruct rt; reflexivity. Qed.
Lemma unit_top rt b : firstn 3 (map (fun r => if Nat.eqb r b then n1 else n0) (seq 0 (jac_rows rt))) = map (fun r => if Nat.eqb r b then n1 else n0) (seq 0 3).
Proof. destruct rt; reflexivity. Qed.
Lemma link_row_top rt P : firstn 3 (link_row rt P) = link_row IGNORE P.
Proof. destruct rt; reflexivity. Qed.

Lemma jacobian_top R root jsorted s rt n jids wb J : is_jacobian R root jsorted s rt n jids wb J -> is_jacobian R root jsorted s IGNORE n jids wb (firstn 3 J).
Proof.
  intros (S1 & E & HE & HJ & HB). split; [exact (shape_top _ _ _ (rows_3 rt) S1)|]. exists E. split; [exact HE|]. split.
  - intros c k j Ek Ej. destruct (HJ c k j Ek Ej) as [Z G]. split.
    + intros N. rewrite column_top, (Z N). apply zeros_top.
    + intros Y. destruct (G Y) as (C & HC & K). exists C. split; [exact HC|]. rewrite column_top, K. apply geometric_top.
  - intros W b Lb. destruct (HB W b Lb) as [H1 H2]. rewrite !column_top, H1, H2. split; [apply unit_top | apply quotient_top].
Qed.
End Rows.
