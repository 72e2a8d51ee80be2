(** Property C43, further statement: where the expansion starts for an object at infinity. *)
From Coq Require Import Reals List Arith ZArith Lia Lra.
From Verif Require Import Base Vec RotModel PlacementModel ElementModel PupilModel SimplexModel SimplexEnum PolyModel TaylorProofs PolyProofs PolyChain PropsPoly.
Import ListNotations.
Open Scope R_scope.

(** the rays of an object at infinity are counted from the entrance pupil, telecentric or not: pupil coordinates are positions in
    the plane [pu_distance] behind the first surface, field coordinates slopes *)
Theorem C43_infinite : forall m idx jdx abi, (2 <= m)%nat -> (Z.of_nat (simplex_size 3 m) <= 65536)%Z -> simplex_idx 3 m = Some (idx, jdx, abi) ->
  forall newton l e0 es n0 c, lens l false es -> p_rotated (e_place e0) = false -> 0 < n0 -> cj_finite c = false ->
  exists pos sts, poly_start c = Some pos /\ poly_trace abi m (simplex_size 3 m) (e0 :: es) l pos n0 = Some sts /\ length sts = S (length es) /\
  forall i st, nth_error sts (S i) = Some st ->
  exists C delta, 0 < delta /\ forall h rad angle x y a b, h < delta -> Rabs rad <= h -> Rabs angle <= h -> Rabs x <= 1 -> Rabs y <= 1 -> Rabs a <= 1 -> Rabs b <= 1 ->
    let D := pu_distance (cj_pupil c) in
    exists p1 p2 y1 y2, poly_evaluate jdx st rad angle x y a b = Some (p1, p2) /\
      exact_y newton (e0 :: es) D n0 l (S i) vx (x * rad) (y * rad) (a * angle) (b * angle) = Some y1 /\
      exact_y newton (e0 :: es) D n0 l (S i) vy (x * rad) (y * rad) (a * angle) (b * angle) = Some y2 /\
      Rabs (y1 - p1) <= C * h ^ (2 * m + 1) /\ Rabs (y2 - p2) <= C * h ^ (2 * m + 1).
Proof.
  intros m idx jdx abi Hm Hs Hi newton l e0 es n0 c LE R0 N0 FI.
  destruct (C43_evaluate m idx jdx abi Hm Hs Hi newton l e0 es (pu_distance (cj_pupil c)) n0 LE R0 N0) as (sts & A & B & H).
  exists (pu_distance (cj_pupil c)), sts. split; [unfold poly_start; rewrite FI; reflexivity|]. split; [exact A|]. split; [exact B|exact H].
Qed.
Example C43_infinite_example : lens 0 false singlet /\
  poly_start (Conjugate false (1/10) (Pupil RadiusPupil 2 10 true false true false 1 Rectilinear) Rectilinear false) = Some 10.
Proof. split; [apply lens_singlet|reflexivity]. Qed.

(** ** further concrete cases *)
From Verif Require Import AffineModel DecomposeModel PropsAffine PropsFromMatrix PropsFromMatrix3 PropsAlign PropsStigmatic PropsCoddington TraceProofs.
(** C51: a lens of glass *)
Example C51_system_example : Forall PlacementProofs.normal_form [at_place 0; at_place 5; at_place 7; at_place 90] /\ Forall (fun x => x <> 0) [1; 3/2; 1; 1].
Proof. split; [repeat (apply Forall_cons; [apply at_place_good; lra|]); apply Forall_nil|repeat (apply Forall_cons; [lra|]); apply Forall_nil]. Qed.
(** C76: the pseudo-projection onto the plane at height one seen from the height three, its eigenvectors in any order *)
Definition pseudo_look : list (epair hvec) := [EP 2 0 (HV ex 0) h0; EP 2 0 (HV ey 0) h0; EP (- (1)) 0 (HV (V 0 0 (/ sqrt 17 * 4)) (/ sqrt 17 * 1)) h0; EP 2 0 (HV (V 0 0 (/ sqrt 2 * 1)) (/ sqrt 2 * 1)) h0].
Example C76_pseudo_example : let m := HM (diag 2 2 (- 2)) (V 0 0 4) (V 0 0 (- (1))) 3 in
  unit_vector ez = Some ez /\ projection_matrix (V 0 0 1) ez None (Some (V 0 0 3)) true = Some m /\ eig4_ok m pseudo_look /\
  tol8 < Rabs (dot ez (vsub3 (V 0 0 3) (V 0 0 1))) /\ dot ez (vsub3 (V 0 0 3) (V 0 0 1)) <> - (1) /\
  projection_from_matrix (fun _ => []) (fun _ => pseudo_look) m true = Some (V 0 0 1, ez, None, Some (V 0 0 3), true).
Proof.
  intros m. pose proof tol8_small as T. destruct (inv_sqrt 2) as (I2 & N2); [lra|]. destruct (inv_sqrt 17) as (I17 & _); [lra|]. split; [apply PropsFromMatrix3.unit_ez|]. split.
  { unfold projection_matrix. rewrite PropsFromMatrix3.unit_ez. cbn [obind]. f_equal. unfold m, diag. f_equal; mat_ring. }
  split; [unfold pseudo_look, m; apply block_ok; rewrite ?I2, ?I17; lra|].
  assert (D : dot ez (vsub3 (V 0 0 3) (V 0 0 1)) = 2) by (unfold dot; cbn; ring). rewrite D. split; [rewrite Rabs_pos_eq; lra|]. split; [lra|].
  unfold projection_from_matrix. replace (final (beyond tol8 pseudo_look)) with (Some (EP 2 0 (HV (V 0 0 (/ sqrt 2 * 1)) (/ sqrt 2 * 1)) h0)).
  2: { symmetry. apply (final_beyond tol8 _ [EP 2 0 (HV ex 0) h0; EP 2 0 (HV ey 0) h0; EP (- (1)) 0 (HV (V 0 0 (/ sqrt 17 * 4)) (/ sqrt 17 * 1)) h0]). cbn [ew]. rewrite Rabs_pos_eq; lra. }
  cbn [obind ev]. unfold dehom. cbn [hv h4 vx vy vz]. rewrite Rmult_1_r, !fdiv_some by auto. cbn [obind]. replace (/ sqrt 2 / / sqrt 2) with 1 by (unfold Rdiv; rewrite Rinv_r by auto; reflexivity). unfold Rdiv. rewrite !Rmult_0_l. unfold m. cbn [hp ht].
  replace (vneg (V 0 0 (- (1)))) with ez by (vec_ring). replace (dot (V 0 0 1) ez) with 1 by (unfold dot; cbn; ring). cbn [vx vy vz]. rewrite !fdiv_some by lra. cbn [obind]. f_equal. f_equal. f_equal. f_equal. apply vec_eq; cbn; field.
Qed.
