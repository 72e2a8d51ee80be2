(** Further examples: concrete cases that meet the hypotheses of theorems of C38. *)
From Coq Require Import Reals List Lra Lia.
From Verif Require Import Base Cx Vec RotModel RotProofs PlacementModel PlacementProofs PropsRescale ElementModel ParaxialModel ParaxialProofs PropsParaxial GaussianModel PropsGaussian.
Import ListNotations.
Open Scope R_scope.

(** a beam with its waist at the first of two planes one apart, in air *)
Definition waist_beam : cm := CM (Cx 0 (-1)) c0 c0 (Cx 0 (-1)).
Definition later_beam : cm := CM (Cx (1 / 2) (- (1 / 2))) c0 c0 (Cx (1 / 2) (- (1 / 2))).
Definition plane_at (d : R) : element := El (Placement d ez (V 0 0 d) v0 true true None None) None Plain.
Definition shift1 : m4 := M4 (V4 1 0 1 0) (V4 0 1 0 1) (V4 0 0 1 0) (V4 0 0 0 1).
Lemma plane_matrix l : paraxial_matrix (plane_at 1) 1 l = (1, Some shift1).
Proof. unfold paraxial_matrix, transfer_matrix. cbn [plane_at e_kind e_place p_distance]. rewrite fdiv_some by lra. cbn [obind]. replace (1 / 1) with 1 by field. reflexivity. Qed.
Lemma shift_beam : beam_act shift1 waist_beam = Some later_beam.
Proof.
  apply act_inv. split.
  - intros Z. apply (f_equal im) in Z. cbn in Z. lra.
  - apply cm_eq; apply cx_eq; cbn; field.
Qed.
Lemma planes_gaussian : sys_gaussian [plane_at 1] (Some waist_beam) 1 1 = [(Some later_beam, 1)].
Proof. cbn [sys_gaussian]. unfold propagate_gaussian. rewrite plane_matrix. cbn [obind]. rewrite shift_beam. reflexivity. Qed.
Example C38_system_example : let es := [plane_at 0; plane_at 1] in
  sys_matrix es 1 1 None = (1, Some (mm4 shift1 eye4)) /\ slice es 1 None <> [] /\
  last (sys_gaussian (slice es 1 None) (Some waist_beam) (refractive_index es 1 0) 1) (Some waist_beam, 1) = (Some later_beam, 1).
Proof.
  cbv zeta. split.
  - unfold sys_matrix, paraxial_matrices. change (slice [plane_at 0; plane_at 1] 1 None) with [plane_at 1]. change (refractive_index [plane_at 0; plane_at 1] 1 0) with 1.
    cbn [matrices]. rewrite plane_matrix. reflexivity.
  - split; [discriminate|]. change (slice [plane_at 0; plane_at 1] 1 None) with [plane_at 1]. change (refractive_index [plane_at 0; plane_at 1] 1 0) with 1.
    rewrite planes_gaussian. reflexivity.
Qed.
Example C38_composition_example : beam_act shift1 waist_beam = Some later_beam /\ exists q, beam_act shift1 later_beam = Some q /\ beam_act (mm4 shift1 shift1) waist_beam = Some q.
Proof.
  split; [exact shift_beam|]. rewrite <- (C38_composition shift1 shift1 waist_beam later_beam shift_beam).
  assert (A : beam_act shift1 later_beam = Some (CM (Cx (2 / 5) (- (1 / 5))) c0 c0 (Cx (2 / 5) (- (1 / 5))))).
  { apply act_inv. split.
    - intros Z. apply (f_equal im) in Z. cbn in Z. lra.
    - apply cm_eq; apply cx_eq; cbn; field. }
  rewrite A. eauto.
Qed.
(** the ray through the rim of the waist, as a complex ray *)
Example C38_rays_example : nth_error (sys_gaussian [plane_at 1] (Some waist_beam) 1 1) 0 = Some (Some later_beam, 1) /\
  on_beam waist_beam (V4 1 0 0 0) (V4 0 0 (-1) 0).
Proof. rewrite planes_gaussian. split; [reflexivity|]. split; apply cx_eq; cbn; ring. Qed.
Example C38_system_physical_example : Forall aligned [plane_at 1] /\ Forall (fun nm => snd nm <> None) (matrices [plane_at 1] 1 1) /\ physical waist_beam.
Proof.
  split; [constructor; [|constructor]; unfold aligned, azimuth, plane_at; cbn; rewrite ?sin_0; ring|].
  split; [cbn [matrices]; rewrite plane_matrix; constructor; [discriminate|constructor]|].
  split; [reflexivity|]. intros x y N. cbn. destruct (Req_EM_T x 0) as [->|X].
  - destruct N as [N|N]; [contradiction|]. pose proof (Rlt_0_sqr y N) as B. unfold Rsqr in B. lra.
  - pose proof (Rlt_0_sqr x X) as B. pose proof (Rle_0_sqr y) as C. unfold Rsqr in B, C. lra.
Qed.
Example C38_free_space_example : c01 waist_beam = c10 waist_beam /\ transfer_matrix 1 1 = Some shift1 /\ free_space waist_beam (1 / 1) = Some later_beam.
Proof.
  assert (T : transfer_matrix 1 1 = Some shift1) by (unfold transfer_matrix; rewrite fdiv_some by lra; cbn [obind]; replace (1 / 1) with 1 by field; reflexivity).
  split; [reflexivity|]. split; [exact T|]. rewrite (C38_free_space waist_beam 1 1 shift1 eq_refl T). exact shift_beam.
Qed.
Example C38_before_example : nth_error [3; 5] 0 = Some 3 /\ 2 <= 3 /\ nth_error [(Some waist_beam, 1); (None, 1)] 0 = Some (Some waist_beam, 1) /\ c01 waist_beam = c10 waist_beam /\ transfer_matrix (2 - 3) 1 <> None.
Proof. split; [reflexivity|]. split; [lra|]. split; [reflexivity|]. split; [reflexivity|]. unfold transfer_matrix. rewrite fdiv_some by lra. discriminate. Qed.
