(** Property C76, continued: where the recognition fails, and concrete cases. *)
From Coq Require Import Reals List Bool Lra Lia Psatz Permutation.
From Verif Require Import Base Vec RotModel RotProofs PlacementModel PupilModel PropsSums AffineModel PropsAffine DecomposeModel PropsDecompose PropsDecompose3 PropsFromMatrix PropsFromMatrix2.
Import ListNotations.
Open Scope R_scope.

(** * the eigenvectors of simple matrices *)
Definition diag (a b c : R) : mat := M (V a 0 0) (V 0 b 0) (V 0 0 c).
Definition axes3 (a b c : R) : list (epair vec) := [EP a 0 ex v0; EP b 0 ey v0; EP c 0 ez v0].
Definition axes4 (a b c : R) : list (epair hvec) := [EP a 0 (HV ex 0) h0; EP b 0 (HV ey 0) h0; EP c 0 (HV ez 0) h0; EP 1 0 (HV v0 1) h0].
Lemma eigen_real (a : mat) x v : dot v v = 1 -> mv a v = vmul3 x v -> eigenpair3 a (EP x 0 v v0).
Proof. intros D E. unfold eigenpair3. cbn [ew ewi ev evi]. split; [rewrite D; vec_ring|]. split; [reflexivity|]. rewrite E. split; [clear; vec_ring|clear; mat_ring]. Qed.
Lemma eigen_real4 (a : hmat) x v : hdot v v = 1 -> hmv a v = hscale x v -> eigenpair4 a (EP x 0 v h0).
Proof.
  intros D E. unfold eigenpair4. cbn [ew ewi ev evi]. split; [rewrite D; unfold hdot, h0; cbn [hv h4]; vec_ring|]. split; [reflexivity|]. rewrite E. destruct a as [l t p w], v as [v k]. unfold hadd, hscale, hmv, h0. cbn [hl ht hp hw hv h4]. split; f_equal; mat_ring.
Qed.
Lemma vec_nonzero v : v <> v0 -> vx v <> 0 \/ vy v <> 0 \/ vz v <> 0.
Proof. destruct v as [x y z]. cbn. intros N. destruct (Req_dec x 0) as [->|]; [|auto]. destruct (Req_dec y 0) as [->|]; [|auto]. destruct (Req_dec z 0) as [->|]; [|auto]. contradiction. Qed.
Lemma mul_cancel a x y : a <> 0 -> x * a = y * a -> x = y. Proof. intros A E. apply (Rmult_eq_reg_r a); auto. Qed.
Lemma diag_ok a b c : eig3_ok (diag a b c) (axes3 a b c).
Proof.
  assert (DV : forall v x, mv (diag a b c) v = vmul3 x v -> a * vx v = x * vx v /\ b * vy v = x * vy v /\ c * vz v = x * vz v).
  { intros v x E. assert (E0 := f_equal vx E). assert (E1 := f_equal vy E). assert (E2 := f_equal vz E). unfold diag, mv, dot in *. cbn in *. lra. }
  split; [reflexivity|]. split; [|split].
  - repeat apply Forall_cons; try apply Forall_nil; apply eigen_real; unfold diag; mat_ring.
  - intros x v N E. apply DV in E. destruct E as (E0 & E1 & E2). apply vec_nonzero in N. unfold axes3. destruct N as [N|[N|N]].
    + exists (EP a 0 ex v0). cbn. split; [auto|]. split; [apply (mul_cancel _ _ _ N E0)|reflexivity].
    + exists (EP b 0 ey v0). cbn. split; [auto|]. split; [apply (mul_cancel _ _ _ N E1)|reflexivity].
    + exists (EP c 0 ez v0). cbn. split; [auto|]. split; [apply (mul_cancel _ _ _ N E2)|reflexivity].
  - intros x u v EU EV N. apply DV in EU, EV. destruct EU as (U0 & U1 & U2), EV as (V0 & V1 & V2).
    assert (Z : forall d k, d <> x -> d * k = x * k -> k = 0). { intros d k H K. assert ((d - x) * k = 0) as L by lra. apply Rmult_integral in L. lra. }
    assert (CXY : cross ex ey <> v0) by (intros Q; injection Q; intros; cbn in *; lra). assert (CXZ : cross ex ez <> v0) by (intros Q; injection Q; intros; cbn in *; lra). assert (CYZ : cross ey ez <> v0) by (intros Q; injection Q; intros; cbn in *; lra).
    destruct u as [u0 u1 u2], v as [w0 w1 w2]. cbn [vx vy vz] in *. unfold axes3.
    destruct (Req_dec a x) as [A|A], (Req_dec b x) as [B|B].
    + exists (EP a 0 ex v0), (EP b 0 ey v0). cbn [In ew ewi ev]. tauto.
    + destruct (Req_dec c x) as [C|C]; [exists (EP a 0 ex v0), (EP c 0 ez v0); cbn [In ew ewi ev]; tauto|]. exfalso. apply N. rewrite (Z _ _ B U1), (Z _ _ B V1), (Z _ _ C U2), (Z _ _ C V2). clear. vec_ring.
    + destruct (Req_dec c x) as [C|C]; [exists (EP b 0 ey v0), (EP c 0 ez v0); cbn [In ew ewi ev]; tauto|]. exfalso. apply N. rewrite (Z _ _ A U0), (Z _ _ A V0), (Z _ _ C U2), (Z _ _ C V2). clear. vec_ring.
    + exfalso. apply N. rewrite (Z _ _ A U0), (Z _ _ A V0), (Z _ _ B U1), (Z _ _ B V1). clear. vec_ring.
Qed.
Lemma diag4_ok a b c : eig4_ok (HM (diag a b c) v0 v0 1) (axes4 a b c).
Proof.
  split; [reflexivity|]. split.
  - repeat apply Forall_cons; try apply Forall_nil; apply eigen_real4; unfold hdot, hmv, hscale, diag; cbn [hl ht hp hw hv h4]; try (f_equal; mat_ring); mat_ring.
  - intros x [v k] N E. assert (E0 := f_equal (fun p => vx (hv p)) E). assert (E1 := f_equal (fun p => vy (hv p)) E). assert (E2 := f_equal (fun p => vz (hv p)) E). assert (E3 := f_equal h4 E). unfold hmv, hscale, diag, mv, dot in E0, E1, E2, E3. cbn in E0, E1, E2, E3.
    destruct (Req_dec k 0) as [K|K].
    + assert (NV : v <> v0) by (intros ->; apply N; rewrite K; reflexivity). apply vec_nonzero in NV. unfold axes4. destruct NV as [Q|[Q|Q]].
      * exists (EP a 0 (HV ex 0) h0). cbn. split; [auto|]. split; [apply (mul_cancel _ _ _ Q); lra|reflexivity].
      * exists (EP b 0 (HV ey 0) h0). cbn. split; [auto|]. split; [apply (mul_cancel _ _ _ Q); lra|reflexivity].
      * exists (EP c 0 (HV ez 0) h0). cbn. split; [auto|]. split; [apply (mul_cancel _ _ _ Q); lra|reflexivity].
    + exists (EP 1 0 (HV v0 1) h0). cbn. split; [auto|]. split; [apply (mul_cancel _ _ _ K); lra|reflexivity].
Qed.
Lemma eig4_perm a l l' : Permutation l l' -> eig4_ok a l -> eig4_ok a l'.
Proof. intros P (L & F & C). split; [rewrite <- (Permutation_length P); exact L|]. split; [rewrite <- P; exact F|]. intros x v N E. destruct (C x v N E) as (e & I & W). exists e. split; [apply (Permutation_in _ P I)|exact W]. Qed.
(** the matrices of projections along the third axis *)
Lemma block_ok a b c d e l1 l2 z1 w1 z2 w2 k1 k2 : b + e = l1 + l2 -> b * e - c * d = l1 * l2 ->
  b * z1 + c * w1 = l1 * z1 -> d * z1 + e * w1 = l1 * w1 -> b * z2 + c * w2 = l2 * z2 -> d * z2 + e * w2 = l2 * w2 -> k1 * k1 * (z1 * z1 + w1 * w1) = 1 -> k2 * k2 * (z2 * z2 + w2 * w2) = 1 ->
  eig4_ok (HM (diag a a b) (V 0 0 c) (V 0 0 d) e) [EP a 0 (HV ex 0) h0; EP a 0 (HV ey 0) h0; EP l1 0 (HV (V 0 0 (k1 * z1)) (k1 * w1)) h0; EP l2 0 (HV (V 0 0 (k2 * z2)) (k2 * w2)) h0].
Proof.
  intros TR DT A1 A2 B1 B2 N1 N2.
  assert (MV : forall v k, hmv (HM (diag a a b) (V 0 0 c) (V 0 0 d) e) (HV v k) = HV (V (a * vx v) (a * vy v) (b * vz v + c * k)) (d * vz v + e * k)) by (clear; intros v k; unfold hmv, diag; cbn [hl ht hp hw hv h4]; f_equal; mat_ring).
  split; [reflexivity|]. split.
  - repeat apply Forall_cons; try apply Forall_nil; apply eigen_real4; rewrite ?MV; unfold hdot, hscale; cbn [hv h4]; try (unfold dot; cbn; lra).
    + f_equal; [apply vec_eq; cbn; ring|cbn; ring].
    + f_equal; [apply vec_eq; cbn; ring|cbn; ring].
    + f_equal; [apply vec_eq; cbn; [ring|ring|]|cbn]; [replace (b * (k1 * z1) + c * (k1 * w1)) with (k1 * (b * z1 + c * w1)) by ring; rewrite A1; ring|replace (d * (k1 * z1) + e * (k1 * w1)) with (k1 * (d * z1 + e * w1)) by ring; rewrite A2; ring].
    + f_equal; [apply vec_eq; cbn; [ring|ring|]|cbn]; [replace (b * (k2 * z2) + c * (k2 * w2)) with (k2 * (b * z2 + c * w2)) by ring; rewrite B1; ring|replace (d * (k2 * z2) + e * (k2 * w2)) with (k2 * (d * z2 + e * w2)) by ring; rewrite B2; ring].
  - intros x [v k] N E. rewrite MV in E. unfold hscale in E. cbn [hv h4] in E. injection E as E0 E1 E2 E3.
    destruct (Req_dec x a) as [XA|XA]; [exists (EP a 0 (HV ex 0) h0); cbn [In ew ewi]; auto|].
    assert (Z : forall q, a * q = x * q -> q = 0) by (intros q H; assert ((x - a) * q = 0) as L by lra; apply Rmult_integral in L; lra). apply Z in E0, E1.
    assert (P : (x - l1) * (x - l2) = 0).
    { assert (X : (x - l1) * (x - l2) = (b - x) * (e - x) - c * d) by (replace ((x - l1) * (x - l2)) with (x * x - (l1 + l2) * x + l1 * l2) by ring; rewrite <- TR, <- DT; ring). rewrite X. set (D := (b - x) * (e - x) - c * d).
      assert (D1 : D * vz v = 0) by (replace (D * vz v) with ((e - x) * (b * vz v + c * k - x * vz v) - c * (d * vz v + e * k - x * k)) by (unfold D; ring); rewrite E2, E3; ring).
      assert (D2 : D * k = 0) by (replace (D * k) with ((b - x) * (d * vz v + e * k - x * k) - d * (b * vz v + c * k - x * vz v)) by (unfold D; ring); rewrite E2, E3; ring).
      destruct (Req_dec D 0) as [|ND]; [auto|]. exfalso. apply N. apply Rmult_integral in D1, D2. unfold h0, v0. f_equal; [destruct v as [p q r]; cbn in *; f_equal; tauto|tauto]. }
    apply Rmult_integral in P. destruct P as [P|P].
    + exists (EP l1 0 (HV (V 0 0 (k1 * z1)) (k1 * w1)) h0). cbn [In ew ewi]. split; [auto|]. lra.
    + exists (EP l2 0 (HV (V 0 0 (k2 * z2)) (k2 * w2)) h0). cbn [In ew ewi]. split; [auto|]. lra.
Qed.
Lemma final_snoc {A} (l : list A) e : final (l ++ [e]) = Some e. Proof. unfold final. rewrite rev_app_distr. reflexivity. Qed.
Lemma near_hit {A} x t (e : epair A) l : Rabs (ew e - x) < t -> near x t (e :: l) = e :: near x t l.
Proof. intros H. unfold near. cbn [filter]. destruct (Rlt_dec (Rabs (ew e - x)) t); [reflexivity|contradiction]. Qed.
Lemma near_skip {A} x t (e : epair A) l : t <= Rabs (ew e - x) -> near x t (e :: l) = near x t l.
Proof. intros H. unfold near. cbn [filter]. destruct (Rlt_dec (Rabs (ew e - x)) t); [lra|reflexivity]. Qed.
Lemma near_app {A} x t (l l' : list (epair A)) : near x t (l ++ l') = near x t l ++ near x t l'. Proof. apply filter_app. Qed.
Lemma final_near {A} x t (e : epair A) l : ew e = x -> 0 < t -> final (near x t (l ++ [e])) = Some e.
Proof. intros E T. rewrite near_app, near_hit by (rewrite E, Rminus_eq_0, Rabs_R0; auto). apply final_snoc. Qed.
Lemma beyond_hit {A} t (e : epair A) : t < Rabs (ew e) -> beyond t [e] = [e].
Proof. intros H. unfold beyond. cbn [filter]. destruct (Rlt_dec t (Rabs (ew e))); [reflexivity|contradiction]. Qed.
Lemma final_beyond {A} t (e : epair A) l : t < Rabs (ew e) -> final (beyond t (l ++ [e])) = Some e.
Proof. intros H. replace (beyond t (l ++ [e])) with (beyond t l ++ beyond t [e]) by (unfold beyond; rewrite filter_app; reflexivity). rewrite beyond_hit by auto. apply final_snoc. Qed.
Lemma dehom_origin : dehom (HV v0 1) = Some v0.
Proof. unfold dehom. cbn [hv h4 v0 vx vy vz]. rewrite fdiv_some by lra. cbn [obind]. unfold v0. replace (0 / 1) with 0 by field. reflexivity. Qed.
Lemma final_axes4 a b c : final (near 1 tol8 (axes4 a b c)) = Some (EP 1 0 (HV v0 1) h0).
Proof. apply (final_near 1 tol8 (EP 1 0 (HV v0 1) h0) [EP a 0 (HV ex 0) h0; EP b 0 (HV ey 0) h0; EP c 0 (HV ez 0) h0]); [reflexivity|apply tol8_small]. Qed.
Lemma unit_ez : unit_vector ez = Some ez. Proof. apply unit_vector_unit. vec_ring. Qed.
Lemma unit_ex : unit_vector ex = Some ex. Proof. apply unit_vector_unit. vec_ring. Qed.

(** * concrete cases *)
Example C76_example_reflection : let m := HM (diag 1 1 (- (1))) v0 v0 1 in
  reflection_matrix v0 ez = Some m /\ eig3_ok (hl m) (axes3 1 1 (- (1))) /\ eig4_ok m (axes4 1 1 (- (1))) /\ reflection_from_matrix (fun _ => axes3 1 1 (- (1))) (fun _ => axes4 1 1 (- (1))) m = Some (v0, ez).
Proof.
  intros m. split; [|split; [apply diag_ok|split; [apply diag4_ok|]]].
  - unfold reflection_matrix. rewrite unit_ez. cbn [obind]. f_equal. unfold m, diag. f_equal; mat_ring.
  - unfold reflection_from_matrix. rewrite final_axes4. unfold axes3. pose proof tol8_small. rewrite near_skip, near_skip, near_hit; cbn [ew]; [|replace (- (1) - - (1)) with 0 by ring; rewrite Rabs_R0; lra|rewrite Rabs_pos_eq; lra|rewrite Rabs_pos_eq; lra]. cbn [first obind ev]. rewrite dehom_origin. reflexivity.
Qed.
Example C76_example_scale : let m := HM (diag 3 1 1) v0 v0 1 in let k := HM (diag 3 3 3) v0 v0 1 in
  scale_matrix 3 (Some v0) (Some ex) = Some m /\ tol8 <= Rabs (3 - 1) /\ eig3_ok (hl m) (axes3 3 1 1) /\ eig4_ok m (axes4 3 1 1) /\ scale_from_matrix (fun _ => axes3 3 1 1) (fun _ => axes4 3 1 1) m = Some (3, v0, Some ex) /\
  scale_matrix 3 (Some v0) None = Some k /\ eig3_ok (hl k) (axes3 3 3 3) /\ eig4_ok k (axes4 3 3 3) /\ scale_from_matrix (fun _ => axes3 3 3 3) (fun _ => axes4 3 3 3) k = Some (3, v0, None).
Proof.
  intros m k. pose proof tol8_small as T. split; [unfold scale_matrix; rewrite unit_ex; cbn [obind]; f_equal; unfold m, diag; f_equal; mat_ring|]. split; [rewrite Rabs_pos_eq; lra|]. split; [apply diag_ok|]. split; [apply diag4_ok|]. split.
  { unfold scale_from_matrix. replace (trace (hl m) - 2) with 3 by (unfold trace, m, diag; cbn; ring). unfold axes3. rewrite near_hit by (cbn [ew]; rewrite Rminus_eq_0, Rabs_R0; lra). cbn [first ev]. rewrite unit_ex. cbn [obind]. rewrite final_axes4. cbn [obind ev]. rewrite dehom_origin. reflexivity. }
  split; [unfold scale_matrix; f_equal; unfold k, diag; f_equal; mat_ring|]. split; [apply diag_ok|]. split; [apply diag4_ok|].
  unfold scale_from_matrix. replace (trace (hl k) - 2) with 7 by (unfold trace, k, diag; cbn; ring). unfold axes3. rewrite !near_skip by (cbn [ew]; rewrite Rabs_left; lra). cbn [near filter first obind]. rewrite final_axes4. cbn [obind ev]. rewrite dehom_origin. cbn [obind fst snd]. f_equal. f_equal. f_equal. field.
Qed.
Example C76_example_rotation : let m := HM (diag (- (1)) (- (1)) 1) v0 v0 1 in
  rotation_about PI ez (Some v0) = Some m /\ tol8 <= 1 - cos PI /\ eig3_ok (mT (hl m)) (axes3 (- (1)) (- (1)) 1) /\ eig4_ok m (axes4 (- (1)) (- (1)) 1) /\
  rotation_from_matrix (fun _ => axes3 (- (1)) (- (1)) 1) (fun _ => axes4 (- (1)) (- (1)) 1) m = Some (PI, ez, v0).
Proof.
  intros m. pose proof tol8_small as T. split.
  { unfold rotation_about. rewrite (rotation_matrix_rodrigues _ _ _ unit_ez). cbn [obind]. f_equal. unfold m, diag, rodrigues. rewrite cos_PI, sin_PI. f_equal; mat_ring. }
  split; [rewrite cos_PI; lra|]. split; [replace (mT (hl m)) with (diag (- (1)) (- (1)) 1) by reflexivity; apply diag_ok|]. split; [apply diag4_ok|].
  unfold rotation_from_matrix. replace (final (near 1 tol8 (axes3 (- (1)) (- (1)) 1))) with (Some (EP 1 0 ez v0)) by (symmetry; apply (final_near 1 tol8 (EP 1 0 ez v0) [EP (- (1)) 0 ex v0; EP (- (1)) 0 ey v0]); [reflexivity|lra]). rewrite final_axes4. cbn [obind ev]. rewrite dehom_origin. cbn [obind].
  cbn [ez vx vy vz]. rewrite Rabs_R1. destruct (Rlt_dec tol8 1); [|lra]. rewrite fdiv_some by lra. cbn [obind]. f_equal. f_equal. f_equal. replace (mget (hl m) 1 0) with 0 by reflexivity. replace (trace (hl m)) with (- (1)) by (unfold trace, m, diag; cbn; ring).
  replace ((0 + ((- (1) - 1) / 2 - 1) * 0 * 0) / 1) with (1 * sin PI) by (rewrite sin_PI; field). replace ((- (1) - 1) / 2) with (1 * cos PI) by (rewrite cos_PI; field). apply atan2_polar; [lra|pose proof PI_RGT_0; lra].
Qed.
Example C76_example_parallel : let m := HM (diag 1 1 0) v0 v0 1 in
  projection_matrix v0 ez None None false = Some m /\ eig3_ok (hl m) (axes3 1 1 0) /\ eig3_ok (mT (hl m)) (axes3 1 1 0) /\ eig4_ok m (axes4 1 1 0) /\
  projection_from_matrix (fun _ => axes3 1 1 0) (fun _ => axes4 1 1 0) m false = Some (v0, ez, Some ez, None, false).
Proof.
  intros m. pose proof tol8_small as T. split; [unfold projection_matrix; rewrite unit_ez; cbn [obind]; f_equal; unfold m, diag; f_equal; mat_ring|]. split; [apply diag_ok|]. split; [replace (mT (hl m)) with (diag 1 1 0) by reflexivity; apply diag_ok|]. split; [apply diag4_ok|].
  unfold projection_from_matrix. rewrite final_axes4. cbn [ev]. rewrite dehom_origin. cbn [obind]. unfold axes3. rewrite near_skip, near_skip, near_hit; cbn [ew]; [|rewrite Rminus_eq_0, Rabs_R0; lra|rewrite Rminus_0_r, Rabs_R1; lra|rewrite Rminus_0_r, Rabs_R1; lra]. cbn [first obind ev]. rewrite unit_ez. reflexivity.
Qed.
Definition look : list (epair hvec) := [EP 2 0 (HV ex 0) h0; EP 2 0 (HV ey 0) h0; EP 0 0 (HV (V 0 0 (/ sqrt 10 * 3)) (/ sqrt 10 * 1)) h0; EP 2 0 (HV (V 0 0 (/ sqrt 2 * 1)) (/ sqrt 2 * 1)) h0].
Lemma inv_sqrt x : 0 < x -> / sqrt x * / sqrt x = / x /\ / sqrt x <> 0.
Proof. intros X. assert (S := sqrt_lt_R0 x X). split; [rewrite <- Rinv_mult by lra; rewrite sqrt_sqrt by lra; reflexivity|apply Rinv_neq_0_compat; lra]. Qed.
Example C76_example_perspective : let m := HM (diag 2 2 (- (1))) (V 0 0 3) (V 0 0 (- (1))) 3 in
  projection_matrix (V 0 0 1) ez None (Some (V 0 0 3)) false = Some m /\ eig4_ok m look /\ dot ez (vsub3 (V 0 0 3) (V 0 0 1)) = 2 /\
  projection_from_matrix (fun _ => []) (fun _ => look) m false = Some (V 0 0 1, ez, None, Some (V 0 0 3), false).
Proof.
  intros m. pose proof tol8_small as T. destruct (inv_sqrt 2) as (I2 & N2); [lra|]. destruct (inv_sqrt 10) as (I10 & _); [lra|]. split.
  { unfold projection_matrix. rewrite unit_ez. cbn [obind]. f_equal. unfold m, diag. f_equal; mat_ring. }
  split; [unfold look, m; apply block_ok; rewrite ?I2, ?I10; lra|]. split; [unfold dot; cbn; ring|]. unfold projection_from_matrix.
  assert (NE : near 1 tol8 look = []) by (unfold look; rewrite near_skip, near_skip, near_skip, near_skip; [reflexivity| | | |]; cbn [ew]; try (rewrite Rabs_pos_eq; lra); rewrite Rabs_left; lra).
  rewrite NE. replace (final (beyond tol8 look)) with (Some (EP 2 0 (HV (V 0 0 (/ sqrt 2 * 1)) (/ sqrt 2 * 1)) h0)).
  2: { symmetry. apply (final_beyond tol8 _ [EP 2 0 (HV ex 0) h0; EP 2 0 (HV ey 0) h0; EP 0 0 (HV (V 0 0 (/ sqrt 10 * 3)) (/ sqrt 10 * 1)) h0]). cbn [ew]. rewrite Rabs_pos_eq; lra. }
  cbn [final rev first obind ev]. unfold dehom. cbn [hv h4 vx vy vz]. rewrite Rmult_1_r, !fdiv_some by auto. cbn [obind]. replace (/ sqrt 2 / / sqrt 2) with 1 by (unfold Rdiv; rewrite Rinv_r by auto; reflexivity). unfold Rdiv. rewrite !Rmult_0_l. unfold m. cbn [hp ht].
  replace (vneg (V 0 0 (- (1)))) with ez by (vec_ring). replace (dot (V 0 0 1) ez) with 1 by (unfold dot; cbn; ring). cbn [vx vy vz]. rewrite !fdiv_some by lra. cbn [obind]. f_equal. f_equal. f_equal. f_equal. apply vec_eq; cbn; field.
Qed.
Definition lean : mat := M (V 1 0 1) (V 0 1 0) (V 0 0 1).
Definition lean3 : list (epair vec) := [EP 1 0 ex v0; EP 1 0 ey v0; EP 1 0 ex v0].
Definition lean4 : list (epair hvec) := [EP 1 0 (HV ex 0) h0; EP 1 0 (HV ey 0) h0; EP 1 0 (HV ex 0) h0; EP 1 0 (HV v0 1) h0].
Lemma norm_unit v : dot v v = 1 -> norm v = 1. Proof. intros D. unfold norm. rewrite D. apply sqrt_1. Qed.
Example C76_example_shear : let m := HM lean v0 v0 1 in
  shear_matrix (PI / 4) ex v0 ez = Some m /\ dot ez ex = 0 /\ sin (PI / 4) <> 0 /\ eig3_ok (hl m) lean3 /\ eig4_ok m lean4 /\ shear_from_matrix (fun _ => lean3) (fun _ => lean4) m = Some (atan 1, ex, v0, ez).
Proof.
  intros m. pose proof tol8_small as T. pose proof PI_RGT_0 as PI0. assert (C4 : cos (PI / 4) <> 0) by (apply Rgt_not_eq, cos_gt_0; lra).
  assert (X1 : forall x v, v <> v0 -> mv lean v = vmul3 x v -> x = 1).
  { intros x [p q r] N E. unfold lean, mv, dot, vmul3 in E. cbn in E. injection E as E0 E1 E2. destruct (Req_dec r 0) as [R0|R0]; [|symmetry; apply (mul_cancel r); [auto|lra]]. destruct (Req_dec q 0) as [Q0|Q0]; [|symmetry; apply (mul_cancel q); [auto|lra]].
    assert (P0 : p <> 0) by (intros Z; apply N; subst; reflexivity). symmetry. apply (mul_cancel p); [auto|]. rewrite R0 in E0. lra. }
  split.
  { unfold shear_matrix. rewrite unit_ez, unit_ex. cbn [obind]. replace (dot ez ex) with 0 by vec_ring. rewrite Rabs_R0. destruct (Rlt_dec (1 / 1000000) 0); [lra|]. unfold ftan. rewrite fdiv_some by auto. cbn [obind]. change (sin (PI / 4) / cos (PI / 4)) with (tan (PI / 4)). rewrite tan_PI4. f_equal. unfold m, lean. f_equal; mat_ring. }
  split; [vec_ring|]. split; [apply Rgt_not_eq, sin_gt_0; lra|]. split.
  { split; [reflexivity|]. split; [repeat apply Forall_cons; try apply Forall_nil; apply eigen_real; cbn [m hl]; unfold lean; mat_ring|]. split.
    - intros x v N E. rewrite (X1 x v N E). exists (EP 1 0 ex v0). cbn. auto.
    - intros x u v EU EV N. assert (NU : u <> v0) by (intros ->; apply N; vec_ring). rewrite (X1 x u NU EU). exists (EP 1 0 ex v0), (EP 1 0 ey v0). cbn [In ew ewi ev lean3]. split; [auto|]. split; [auto|]. repeat (split; [reflexivity|]). intros Q. injection Q. intros. cbn in *. lra. }
  split.
  { split; [reflexivity|]. split; [repeat apply Forall_cons; try apply Forall_nil; apply eigen_real4; unfold hdot, hmv, hscale, m, lean; cbn [hl ht hp hw hv h4]; try (f_equal; mat_ring); mat_ring|].
    intros x [v k] N E. exists (EP 1 0 (HV v0 1) h0). cbn [In ew ewi lean4]. split; [auto|]. split; [|reflexivity]. assert (EK := f_equal h4 E). assert (EV := f_equal hv E). unfold hmv, hscale, m in EK, EV. cbn [hl ht hp hw hv h4] in EK, EV.
    destruct (Req_dec k 0) as [K|K].
    - symmetry. apply (X1 x v); [intros ->; apply N; rewrite K; reflexivity|]. rewrite <- EV, K. clear. generalize lean. intros. mat_ring.
    - apply (mul_cancel k); [auto|]. rewrite <- EK. clear. vec_ring. }
  unfold shear_from_matrix. assert (T4 : 0 < / 10 ^ 4) by lra. unfold lean3. rewrite !near_hit by (cbn [ew]; rewrite Rminus_eq_0, Rabs_R0; exact T4). cbn [near filter ev].
  replace (cross ex ey) with ez by vec_ring. replace (cross ex ex) with v0 by vec_ring. replace (cross ey ex) with (vneg ez) by vec_ring. unfold longest. rewrite (norm_unit ez) by vec_ring. destruct (Rlt_dec (- (1)) 1); [|lra]. rewrite (proj2 (norm_zero v0) eq_refl), (norm_unit (vneg ez)) by vec_ring. destruct (Rlt_dec 1 0); [lra|]. destruct (Rlt_dec 1 1); [lra|].
  rewrite !fdiv_some by lra. cbn [obind]. replace (V (vx ez / 1) (vy ez / 1) (vz ez / 1)) with ez by (apply vec_eq; cbn; field). replace (mv (madd (hl m) (mscale (- (1)) eye)) ez) with ex by (unfold m, lean; cbn [hl]; mat_ring). rewrite (norm_unit ex) by vec_ring. rewrite !fdiv_some by lra. cbn [obind].
  replace (final (near 1 tol8 lean4)) with (Some (EP 1 0 (HV v0 1) h0)) by (symmetry; apply (final_near 1 tol8 (EP 1 0 (HV v0 1) h0) [EP 1 0 (HV ex 0) h0; EP 1 0 (HV ey 0) h0; EP 1 0 (HV ex 0) h0]); [reflexivity|lra]). cbn [obind ev]. rewrite dehom_origin. cbn [obind]. f_equal. f_equal. f_equal. f_equal. apply vec_eq; cbn; field.
Qed.

(** * where the recognition fails *)
(** a viewer at unit distance from a plane that misses the origin: the perspective is taken for a parallel projection and refused *)
Theorem C76_perspective_refuted eig3 eig4 point normal direction viewer m n : unit_vector normal = Some n -> projection_matrix point normal direction (Some viewer) false = Some m ->
  eig3_ok (hl m) (eig3 (hl m)) -> eig4_ok m (eig4 m) -> dot n (vsub3 viewer point) = 1 -> tol8 <= Rabs (dot n point) -> dot n point <> - (1) -> projection_from_matrix eig3 eig4 m false = None.
Proof.
  intros U E K3 K4 S TOL C1. unfold projection_matrix in E. rewrite U in E. cbn [obind] in E. apply some_inj in E. destruct (unit_parallel normal n U) as (D & NN & NK & _). pose proof tol8_small as TS. rewrite (dot_comm (vsub3 viewer point) n), S in E.
  assert (SD : dot n viewer = 1 + dot n point) by (rewrite sub_dot_r in S; lra). rewrite (dot_comm point n), (dot_comm viewer n) in E.
  assert (MV : forall v k, hmv m (HV v k) = HV (vadd3 (vmul3 1 v) (vmul3 (k * dot n point - dot n v) viewer)) (dot n viewer * k - dot n v)) by (intros; rewrite <- E; apply persp_mv; auto).
  assert (ML : forall v, mv (hl m) v = vsub3 v (vmul3 (dot n v) viewer)) by (intros v; rewrite <- E; cbn [hl]; clear; mat_ring).
  destruct K4 as (_ & _ & C4). destruct (C4 1 (HV point 1)) as (e & I & W & _). { unfold h0. intros Z. injection Z. intros. lra. } { rewrite MV. unfold hscale. cbn [hv h4]. f_equal; [clear; generalize (dot n point); intros; vec_ring|rewrite SD; ring]. }
  destruct (final_in (near 1 tol8 (eig4 m))) as (p & P & _). { apply (in_nonempty _ e). rewrite near_in, W, Rminus_eq_0, Rabs_R0. split; [auto|lra]. }
  unfold projection_from_matrix. rewrite P. destruct (dehom (ev p)); [|reflexivity]. cbn [obind].
  assert (NE : near 0 tol8 (eig3 (hl m)) = []).
  { destruct (near 0 tol8 (eig3 (hl m))) as [|f r] eqn:QQ; [reflexivity|]. exfalso. assert (J : In f (near 0 tol8 (eig3 (hl m)))) by (rewrite QQ; left; auto). apply near_in in J. destruct J as (J & K). destruct K3 as (_ & F & _). rewrite Forall_forall in F.
    destruct (quadratic3 (hl m) 1 (- dot n point) f) as (_ & X & _); [lra| |auto|].
    { intros y. rewrite !ML, sub_dot_r, dot_scale_r, SD. clear. generalize (dot n y) (dot n point). intros. vec_ring. }
    rewrite Rminus_0_r in K. destruct X as [X|X]; rewrite X in K; [rewrite Rabs_R1 in K; lra|rewrite Rabs_Ropp in K; lra]. }
  rewrite NE. reflexivity.
Qed.
Example C76_example_perspective_refuted : let m := HM (diag 1 1 (- 2)) (V 0 0 6) (V 0 0 (- (1))) 3 in
  projection_matrix (V 0 0 2) ez None (Some (V 0 0 3)) false = Some m /\ eig3_ok (hl m) (axes3 1 1 (- 2)) /\
  eig4_ok m [EP 1 0 (HV ex 0) h0; EP 1 0 (HV ey 0) h0; EP 0 0 (HV (V 0 0 (/ sqrt 10 * 3)) (/ sqrt 10 * 1)) h0; EP 1 0 (HV (V 0 0 (/ sqrt 5 * 2)) (/ sqrt 5 * 1)) h0] /\
  dot ez (vsub3 (V 0 0 3) (V 0 0 2)) = 1 /\ dot ez (V 0 0 2) = 2.
Proof.
  intros m. destruct (inv_sqrt 5) as (I5 & _); [lra|]. destruct (inv_sqrt 10) as (I10 & _); [lra|]. split.
  { unfold projection_matrix. rewrite unit_ez. cbn [obind]. f_equal. unfold m, diag. f_equal; mat_ring. }
  split; [apply diag_ok|]. split; [unfold m; apply block_ok; rewrite ?I5, ?I10; lra|]. unfold dot. cbn. lra.
Qed.
(** a pseudo perspective recognised by the wrong eigenvector *)
Definition stare : list (epair hvec) := [EP 2 0 (HV ex 0) h0; EP 2 0 (HV ey 0) h0; EP 2 0 (HV (V 0 0 (/ sqrt 17 * -4)) (/ sqrt 17 * 1)) h0; EP (- (1)) 0 (HV (V 0 0 (/ sqrt 2 * - (1))) (/ sqrt 2 * 1)) h0].
Theorem C76_pseudo_refuted : exists m eig4, projection_matrix (V 0 0 (-4)) ez None (Some (V 0 0 (-2))) true = Some m /\ eig4_ok m (eig4 m) /\
  exists p u k, (forall eig3, projection_from_matrix eig3 eig4 m true = Some (p, ez, None, Some u, true)) /\ ~ on_plane (V 0 0 (-4)) ez p /\ projection_matrix p ez None (Some u) true = Some k /\
    exists Q, image m ex Q /\ ~ image k ex Q.
Proof.
  destruct (inv_sqrt 2) as (I2 & N2); [lra|]. destruct (inv_sqrt 17) as (I17 & _); [lra|]. pose proof tol8_small as T.
  exists (HM (diag 2 2 3) (V 0 0 4) (V 0 0 (- (1))) (- 2)), (fun _ => stare). split.
  { unfold projection_matrix. rewrite unit_ez. cbn [obind]. f_equal. unfold diag. f_equal; mat_ring. }
  split; [unfold stare; apply block_ok; rewrite ?I2, ?I17; lra|]. exists (V 0 0 (- (1))), (V 0 0 (- 5)), (HM (diag (- 4) (- 4) 0) (V 0 0 4) (V 0 0 (- (1))) (- 5)). split; [|split; [|split]].
  - intros eig3. unfold projection_from_matrix. replace (final (beyond tol8 stare)) with (Some (EP (- (1)) 0 (HV (V 0 0 (/ sqrt 2 * - (1))) (/ sqrt 2 * 1)) h0)).
    2: { symmetry. apply (final_beyond tol8 _ [EP 2 0 (HV ex 0) h0; EP 2 0 (HV ey 0) h0; EP 2 0 (HV (V 0 0 (/ sqrt 17 * -4)) (/ sqrt 17 * 1)) h0]). cbn [ew]. rewrite Rabs_left; lra. }
    cbn [obind ev]. unfold dehom. cbn [hv h4 vx vy vz]. rewrite Rmult_1_r, !fdiv_some by auto. cbn [obind]. replace (/ sqrt 2 * - (1) / / sqrt 2) with (- (1)) by (unfold Rdiv; rewrite (Rmult_comm (/ sqrt 2)), Rmult_assoc, Rinv_r by auto; ring). unfold Rdiv. rewrite !Rmult_0_l. cbn [hp ht].
    replace (vneg (V 0 0 (- (1)))) with ez by (vec_ring). replace (dot (V 0 0 (- (1))) ez) with (- (1)) by (unfold dot; cbn; ring). cbn [vx vy vz]. rewrite !fdiv_some by lra. cbn [obind]. f_equal. f_equal. f_equal. f_equal. apply vec_eq; cbn; field.
  - unfold on_plane, dot. cbn. lra.
  - unfold projection_matrix. rewrite unit_ez. cbn [obind]. f_equal. unfold diag. f_equal; mat_ring.
  - exists (V (- (1)) 0 (- 2)). split.
    + exists (- 2). split; [lra|]. unfold hmv, diag. cbn [hl ht hp hw hv h4]. f_equal; [apply vec_eq; unfold mv, dot; cbn; lra|unfold dot; cbn; lra].
    + intros (s & S & E). apply (f_equal (fun q => vx (hv q) + h4 q)) in E. assert (E4 := E). unfold hmv, diag, mv, dot in E. cbn in E. lra.
Qed.
(** a small rotation, about the first axis by less than a hundredth of a degree: the eigenvalues are within the tolerance of 1, the last eigenvector is not
    the axis, and the rotation found is by the angle zero *)
Definition slow_c : R := (1 - / 10 ^ 10) / (1 + / 10 ^ 10).
Definition slow_s : R := 2 * / 10 ^ 5 / (1 + / 10 ^ 10).
Theorem C76_rotation_refuted : exists angle m eig3 eig4, 0 < sin angle /\ rotation_about angle ex (Some v0) = Some m /\ eig3_ok (mT (hl m)) (eig3 (mT (hl m))) /\ eig4_ok m (eig4 m) /\
  exists d, rotation_from_matrix eig3 eig4 m = Some (0, d, v0) /\ ~ parallel ex d /\ rotation_about 0 d (Some v0) = Some identity_matrix /\ m <> identity_matrix.
Proof.
  pose proof tol8_small as T. set (c := slow_c). set (s := slow_s). assert (CS : c * c + s * s = 1) by (unfold c, s, slow_c, slow_s; field). assert (SP : 0 < s) by (unfold s, slow_s; lra). assert (C1 : Rabs (c - 1) < tol8) by (unfold c, slow_c, tol8; rewrite Rabs_left; lra). assert (CP : 0 < c) by (unfold c, slow_c; lra). clearbody c s.
  exists (atan2 s c). destruct (atan2_cs s c) as (AC & AS); [lra|]. rewrite CS, sqrt_1 in AC, AS. assert (AC' : cos (atan2 s c) = c) by lra. assert (AS' : sin (atan2 s c) = s) by lra. clear AC AS.
  exists (HM (M (V 1 0 0) (V 0 c (- s)) (V 0 s c)) v0 v0 1).
  destruct (inv_sqrt 2) as (I2 & N2); [lra|]. set (h := / sqrt 2) in *. clearbody h.
  set (l3 := [EP 1 0 ex v0; EP c s (V 0 h 0) (V 0 0 h); EP c (- s) (V 0 h 0) (V 0 0 (- h))]).
  set (l4 := [EP 1 0 (HV ex 0) h0; EP c s (HV (V 0 h 0) 0) (HV (V 0 0 (- h)) 0); EP c (- s) (HV (V 0 h 0) 0) (HV (V 0 0 h) 0); EP 1 0 (HV v0 1) h0]).
  assert (ROT : forall x p q, c * p - s * q = x * p -> s * p + c * q = x * q -> p = 0 /\ q = 0).
  { intros x p q P Q. assert (A : (c - x) * p = s * q) by lra. assert (B : (c - x) * q = - s * p) by lra. assert (X : ((c - x) * (c - x) + s * s) * p = 0) by (replace (((c - x) * (c - x) + s * s) * p) with ((c - x) * ((c - x) * p) + s * s * p) by ring; rewrite A; replace ((c - x) * (s * q)) with (s * ((c - x) * q)) by ring; rewrite B; ring).
    assert (Y : ((c - x) * (c - x) + s * s) * q = 0) by (replace (((c - x) * (c - x) + s * s) * q) with ((c - x) * ((c - x) * q) + s * (s * q)) by ring; rewrite B, <- A; ring).
    assert (Z : 0 < (c - x) * (c - x) + s * s) by (pose proof (Rle_0_sqr (c - x)) as W; unfold Rsqr in W; nra). apply Rmult_integral in X, Y. split; [destruct X; lra|destruct Y; lra]. }
  exists (fun _ => l3), (fun _ => l4). split; [rewrite AS'; exact SP|]. split; [|split; [|split]].
  - unfold rotation_about. rewrite (rotation_matrix_rodrigues _ _ _ unit_ex). cbn [obind]. unfold rodrigues. rewrite AC', AS'. f_equal. f_equal; mat_ring.
  - split; [reflexivity|]. split; [|split].
    + unfold l3. repeat apply Forall_cons; try apply Forall_nil; [apply eigen_real; cbn [hl]; mat_ring| |]; unfold eigenpair3; cbn [ew ewi ev evi hl].
      * split; [unfold dot; cbn; lra|]. split; [intros; lra|]. split; mat_ring.
      * split; [unfold dot; cbn; lra|]. split; [intros; lra|]. split; mat_ring.
    + intros x [p q r] N E. exists (EP 1 0 ex v0). cbn [In ew ewi l3]. split; [left; reflexivity|]. split; [|reflexivity]. cbn [hl] in E. unfold mv, mT, col0, col1, col2, dot, vmul3 in E. cbn in E. injection E as E0 E1 E2. destruct (ROT x r q) as (R0 & Q0); [lra|lra|]. subst r q.
      assert (P0 : p <> 0) by (intros ->; apply N; reflexivity). apply (mul_cancel p); [auto|lra].
    + intros x [p q r] [p' q' r'] E E' N. exfalso. cbn [hl] in E, E'. unfold mv, mT, col0, col1, col2, dot, vmul3 in E, E'. cbn in E, E'. injection E as E0 E1 E2. injection E' as E0' E1' E2'. destruct (ROT x r q) as (R0 & Q0); [lra|lra|]. destruct (ROT x r' q') as (R0' & Q0'); [lra|lra|]. subst. apply N. clear. vec_ring.
  - split; [reflexivity|]. split.
    + unfold l4. repeat apply Forall_cons; try apply Forall_nil; [apply eigen_real4; unfold hdot, hmv, hscale; cbn [hl ht hp hw hv h4]; try (f_equal; mat_ring); mat_ring| | |apply eigen_real4; unfold hdot, hmv, hscale; cbn [hl ht hp hw hv h4]; try (f_equal; mat_ring); mat_ring]; unfold eigenpair4, hdot, hmv, hadd, hscale; cbn [ew ewi ev evi hl ht hp hw hv h4].
      * split; [unfold dot; cbn; lra|]. split; [intros; lra|]. split; f_equal; mat_ring.
      * split; [unfold dot; cbn; lra|]. split; [intros; lra|]. split; f_equal; mat_ring.
    + intros x [[p q r] k] N E. exists (EP 1 0 (HV ex 0) h0). cbn [In ew ewi l4]. split; [left; reflexivity|]. split; [|reflexivity]. unfold hmv, hscale, mv, dot, vmul3, vadd3, v0 in E. cbn in E. injection E as E0 E1 E2 E3. destruct (ROT x q r) as (Q0 & R0); [lra|lra|]. subst r q.
      destruct (Req_dec k 0) as [K|K]; [|apply (mul_cancel k); [auto|lra]]. assert (P0 : p <> 0) by (intros ->; apply N; rewrite K; reflexivity). apply (mul_cancel p); [auto|lra].
  - exists (V 0 h 0). split; [|split; [|split]].
    + unfold rotation_from_matrix.
      replace (final (near 1 tol8 l3)) with (Some (EP c (- s) (V 0 h 0) (V 0 0 (- h)))). 2: { symmetry. change l3 with ([EP 1 0 ex v0; EP c s (V 0 h 0) (V 0 0 h)] ++ [EP c (- s) (V 0 h 0) (V 0 0 (- h))]). rewrite near_app, (near_hit _ _ (EP c (- s) (V 0 h 0) (V 0 0 (- h)))) by exact C1. apply final_snoc. }
      replace (final (near 1 tol8 l4)) with (Some (EP 1 0 (HV v0 1) h0)) by (symmetry; apply (final_near 1 tol8 (EP 1 0 (HV v0 1) h0) [EP 1 0 (HV ex 0) h0; EP c s (HV (V 0 h 0) 0) (HV (V 0 0 (- h)) 0); EP c (- s) (HV (V 0 h 0) 0) (HV (V 0 0 h) 0)]); [reflexivity|lra]).
      cbn [obind ev]. rewrite dehom_origin. cbn [obind vx vy vz hl]. rewrite Rabs_R0. destruct (Rlt_dec tol8 0); [lra|]. assert (HH : tol8 < Rabs h).
      { apply Rnot_le_lt. intros L. assert (X : h * h <= 1 / 4). { rewrite <- (Rabs_pos_eq (h * h)) by apply Rle_0_sqr. rewrite Rabs_mult. pose proof (Rabs_pos h). assert (tol8 <= 1 / 2) by (unfold tol8; lra). nra. } lra. }
      destruct (Rlt_dec tol8 (Rabs h)); [|contradiction]. rewrite fdiv_some by auto. cbn [obind]. f_equal. f_equal. f_equal. unfold trace. cbn [row0 row1 row2 vx vy vz mget]. replace ((1 + c + c - 1) / 2) with (c * cos 0) by (rewrite cos_0; field). match goal with |- atan2 ?y _ = _ => replace y with (c * sin 0) end. { apply atan2_polar; [exact CP|pose proof PI_RGT_0; lra]. } rewrite sin_0. cbn. field. auto.
    + unfold parallel. intros Q. injection Q. intros. cbn in *. apply N2. lra.
    + unfold rotation_about. assert (ND : V 0 h 0 <> v0) by (intros Q; injection Q; intros; apply N2; lra). destruct (unit_vector_some _ ND) as (u & UU & DU & _). rewrite (rotation_matrix_rodrigues _ _ _ UU). cbn [obind]. unfold rodrigues. rewrite cos_0, sin_0. f_equal. unfold identity_matrix. f_equal; mat_ring.
    + intros Q. apply (f_equal (fun a => vy (row2 (hl a)))) in Q. cbn in Q. lra.
Qed.
