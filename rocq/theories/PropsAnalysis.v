(** Property C66: the curves of the analysis plots and the printed third order coefficients. *)
From Coq Require Import String Bool Reals List Lra Lia Psatz Arith.
From Verif Require Import RefocusModel PupilModel PropsPupil SampleModel PropsSample Base Vec RotModel PlacementModel PlacementProofs ElementModel ElementProofs TraceProofs
  PropsElement ParaxialModel FirstOrder LimitProofs PropsLimit ThirdOrder ParaxTraceModel SeidelModel SeidelProofs PropsSeidel
  AnalysisModel.
Import ListNotations.
Open Scope R_scope.

(** * rays as lines *)
(** the straight ray through [y] along [u] crosses the plane z = [z] at (x, y) = [p] *)
Definition crosses (y u : vec) (z : R) (p : R * R) : Prop :=
  exists t, vx y + t * vx u = fst p /\ vy y + t * vy u = snd p /\ vz y + t * vz u = z.
Lemma slope_some i t : slope i = Some t <-> vz i <> 0 /\ t = (vx i / vz i, vy i / vz i).
Proof.
  unfold slope. destruct (Req_EM_T (vz i) 0) as [E|E].
  - rewrite E, fdiv_zero by reflexivity. cbn. split; [discriminate|intros (H & _); lra].
  - rewrite !fdiv_some by auto. cbn. split; [intros [= <-]; auto|intros (_ & ->); auto].
Qed.
Lemma crosses_slope y i t z : vz y = 0 -> slope i = Some t -> crosses y i z (vx y + z * fst t, vy y + z * snd t).
Proof. intros Z S. apply slope_some in S. destruct S as (N & ->). exists (z / vz i). cbn [fst snd]. rewrite Z. repeat split; field; auto. Qed.
Lemma crosses_unique y i z p q : vz i <> 0 -> crosses y i z p -> crosses y i z q -> p = q.
Proof.
  intros N (t & A1 & A2 & A3) (s & B1 & B2 & B3). assert (t = s) by (apply (Rmult_eq_reg_r (vz i)); auto; lra). subst s.
  destruct p, q; cbn in *. f_equal; lra.
Qed.

(** the transverse ray error plots: pupil coordinates are those of the launched rays in the plane of the entrance
    pupil, errors those of the landing points, both relative to the reference ray *)
Theorem C66_transverse p rays ref r0 y0 i0 curves : nth_error rays ref = Some r0 -> br_end r0 = Some (y0, i0) ->
  Forall (fun r => vz (br_y0 r) = 0 /\ vz (br_u0 r) <> 0) rays ->
  transverse p rays ref = Some curves ->
  exists c0, crosses (br_y0 r0) (br_u0 r0) p c0 /\
  let point (f g : R * R -> R) (r : bundle_ray) (q : option R * option R) :=
    (exists c, crosses (br_y0 r) (br_u0 r) p c /\ fst q = Some (f c - f c0)) /\
    snd q = match br_end r with Some (y, _) => Some (g (vx y, vy y) - g (vx y0, vy y0)) | None => None end in
  Forall2 (point snd snd) (firstn ref rays) (fst (fst curves)) /\
  Forall2 (point fst snd) (skipn ref rays) (snd (fst curves)) /\
  Forall2 (point fst fst) (skipn ref rays) (snd curves).
Proof.
  intros R0 E0 FA T.
  assert (ZU : vz (br_y0 r0) = 0 /\ vz (br_u0 r0) <> 0) by (rewrite Forall_forall in FA; apply FA; eapply nth_error_In; eauto). destruct ZU as (Z0 & U0).
  unfold transverse in T. rewrite R0 in T. cbn [obind] in T. injection T as <-.
  assert (S0 : slope (br_u0 r0) = Some (vx (br_u0 r0) / vz (br_u0 r0), vy (br_u0 r0) / vz (br_u0 r0))) by (apply slope_some; auto).
  eexists. split; [apply (crosses_slope _ _ _ p Z0 S0)|]. cbn [fst snd].
  assert (G : forall f g (l : list bundle_ray), (f = fst \/ f = snd) -> (g = fst \/ g = snd) -> Forall (fun r => vz (br_y0 r) = 0 /\ vz (br_u0 r) <> 0) l ->
    Forall2 (fun (r : bundle_ray) (q : option R * option R) => (exists c, crosses (br_y0 r) (br_u0 r) p c /\
      fst q = Some (f c - f (vx (br_y0 r0) + p * (vx (br_u0 r0) / vz (br_u0 r0)), vy (br_y0 r0) + p * (vy (br_u0 r0) / vz (br_u0 r0))))) /\
      snd q = match br_end r with Some (y, _) => Some (g (vx y, vy y) - g (vx y0, vy y0)) | None => None end)
    l (map (fun r => (oproj f (pupil_position p r0 r), oproj g (landing r0 r))) l)).
  { intros f g l Hf Hg FL. induction FL as [|r l (Z & N) _ IH]; [constructor|]. cbn [map]. constructor; [|exact IH]. cbn [fst snd].
    assert (S : slope (br_u0 r) = Some (vx (br_u0 r) / vz (br_u0 r), vy (br_u0 r) / vz (br_u0 r))) by (apply slope_some; auto). split.
    - eexists. split; [apply (crosses_slope _ _ _ p Z S)|]. unfold oproj, pupil_position, at_pupil. rewrite S, S0. cbn [obind fst snd]. destruct Hf as [-> | ->]; reflexivity.
    - unfold oproj, landing. rewrite E0. destruct (br_end r) as [[y i]|]; cbn [obind fst snd]; [|reflexivity]. destruct Hg as [-> | ->]; reflexivity. }
  assert (FF : forall k, Forall (fun r => vz (br_y0 r) = 0 /\ vz (br_u0 r) <> 0) (firstn k rays) /\ Forall (fun r => vz (br_y0 r) = 0 /\ vz (br_u0 r) <> 0) (skipn k rays)).
  { intros k. rewrite Forall_forall in FA. split; apply Forall_forall; intros x I; apply FA; rewrite <- (firstn_skipn k rays); apply in_or_app; auto. }
  destruct (FF ref) as (F1 & F2). split; [exact (G snd snd _ (or_intror eq_refl) (or_intror eq_refl) F1)|].
  split; [exact (G fst snd _ (or_introl eq_refl) (or_intror eq_refl) F2)|exact (G fst fst _ (or_introl eq_refl) (or_introl eq_refl) F2)].
Qed.

(** the sampling of these plots: the rays before the reference ray scan the meridional pupil from edge to edge, the ray
    itself and those behind it scan half of the sagittal one *)
Theorem C66_tee rand gr gl n : (5 <= n)%nat -> exists ref xy, pupil_distribution rand gr gl Tee n = Some (ref, xy, None) /\
  let m := ((n - 2) / 3)%nat in (0 < m)%nat /\ ref = (2 * m + 1)%nat /\ nth_error xy ref = Some (0, 0) /\
  length xy = (3 * m + 2)%nat /\
  (forall k, (k < ref)%nat -> nth_error xy k = Some (0, -1 + INR k / INR m)) /\
  (forall k, (k <= m)%nat -> nth_error xy (ref + k) = Some (INR k / INR m, 0)).
Proof.
  intros H. unfold pupil_distribution. destruct (Nat.eqb_spec n 1); [lia|]. destruct (Nat.ltb_spec n 2); [lia|]. cbv zeta.
  set (m := ((n - 2) / 3)%nat). assert (M : (0 < m)%nat) by (apply Nat.div_str_pos; lia). clearbody m. do 2 eexists. split; [reflexivity|].
  assert (MR : 0 < INR m) by (apply lt_0_INR; auto).
  assert (LIN : forall a b q k, (0 < q)%nat -> (k <= q)%nat -> nth_error (linspace a b (q + 1)) k = Some (a + INR k * ((b - a) / INR q))).
  { intros a b q k Q K. replace (q + 1)%nat with (S (S (q - 1))) by lia. cbn [linspace]. replace (S (q - 1)) with q by lia.
    rewrite nth_error_map. rewrite (nth_error_nth' _ 0%nat) by (rewrite seq_length; lia). rewrite seq_nth by lia. reflexivity. }
  split; [auto|]. split; [auto|].
  assert (L1 : length (map (fun y : R => (0, y)) (linspace (-1) 1 (2 * m + 1))) = (2 * m + 1)%nat) by (rewrite map_length; apply linspace_length).
  assert (SEC : forall k, (k <= m)%nat -> nth_error (map (fun y : R => (0, y)) (linspace (-1) 1 (2 * m + 1)) ++ map (fun x : R => (x, 0)) (linspace 0 1 (m + 1))) (2 * m + 1 + k) = Some (INR k / INR m, 0)).
  { intros k K. rewrite nth_error_app2 by lia. rewrite L1. replace (2 * m + 1 + k - (2 * m + 1))%nat with k by lia. rewrite nth_error_map, LIN by auto. cbn [option_map]. do 2 f_equal. field. lra. }
  split; [|split; [|split]].
  - pose proof (SEC 0%nat ltac:(lia)) as S0. rewrite Nat.add_0_r in S0. rewrite S0. cbn [INR]. do 2 f_equal. field. lra.
  - rewrite app_length, L1, map_length, linspace_length. lia.
  - intros k K. rewrite nth_error_app1 by lia. rewrite nth_error_map, LIN by lia. cbn [option_map]. do 2 f_equal. rewrite mult_INR. cbn [INR]. field. lra.
  - exact SEC.
Qed.
Example C66_tee_example : exists xy, pupil_distribution (fun _ => []) (fun _ => ([], [])) (fun _ => ([], [])) Tee 152 = Some (101%nat, xy, None) /\ length xy = 152%nat.
Proof. destruct (C66_tee (fun _ => []) (fun _ => ([], [])) (fun _ => ([], [])) 152 ltac:(lia)) as (ref & xy & E & _ & -> & _ & L & _). exists xy. split; [exact E|exact L]. Qed.

(** the spot diagrams: the points where the rays cross the shifted plane, relative to the landing of the reference ray *)
Theorem C66_spots nd z ref r y i y0 i0 k zi : br_end ref = Some (y0, i0) -> br_end r = Some (y, i) -> vz y = 0 -> vz i <> 0 ->
  nth_error (planes nd z) k = Some zi ->
  (k < nd)%nat /\ zi = (INR k - INR (Nat.div nd 2)) * z /\
  exists s c, spot zi ref r = Some s /\ crosses y i zi c /\ s = (fst c - vx y0, snd c - vy y0).
Proof.
  intros E0 E Z N P. unfold planes in P. rewrite nth_error_map in P. destruct (nth_error (seq 0 nd) k) as [q|] eqn:Q; [|discriminate]. cbn in P. injection P as <-.
  assert (K : (k < nd)%nat) by (rewrite <- (seq_length nd 0); apply nth_error_Some; congruence).
  rewrite (nth_error_nth' _ 0%nat) in Q by (rewrite seq_length; auto). rewrite seq_nth in Q by auto. injection Q as <-. cbn [plus] in *.
  split; [auto|]. split; [reflexivity|].
  assert (S : slope i = Some (vx i / vz i, vy i / vz i)) by (apply slope_some; auto).
  eexists; eexists. split; [|split; [apply (crosses_slope _ _ _ _ Z S)|reflexivity]].
  unfold spot, landing. rewrite E, E0. cbn [obind fst snd]. rewrite S. cbn [obind fst snd]. do 2 f_equal; ring.
Qed.
Example C66_spots_example : let r := BRay v0 ez (Some (V 0 2 0, V 0 (3/5) (4/5))) in let ref := BRay v0 ez (Some (V 0 1 0, ez)) in
  nth_error (planes 5 4) 3 = Some ((INR 3 - INR 2) * 4) /\ spot 4 ref r = Some (0 + 4 * (0 / (4/5)), 1 + 4 * (3/5 / (4/5))).
Proof.
  cbv zeta. split; [reflexivity|]. unfold spot, landing, slope. cbn [br_end obind fst snd vx vy vz ez]. rewrite !fdiv_some by lra. cbn [obind fst snd vx vy vz]. do 2 f_equal; lra.
Qed.

(** * foci of pairs of rays *)
(** the height where a ray crosses a plane in one projection *)
Definition level (f : R * R -> R) (y i : vec) (z h : R) : Prop := exists c, crosses y i z c /\ f c = h.
Theorem C66_foci a i b j : vz a = 0 -> vz b = 0 -> vz i <> 0 -> vz j <> 0 ->
  (forall z, tangential_focus a i b j = Some z -> (exists h, level snd a i z h /\ level snd b j z h) /\
     forall z', (exists h, level snd a i z' h /\ level snd b j z' h) -> z' = z) /\
  (tangential_focus a i b j = None <-> vy i / vz i = vy j / vz j) /\
  (forall z, sagittal_focus a i b j = Some z -> (exists h, level fst a i z h /\ level fst b j z h) /\
     forall z', (exists h, level fst a i z' h /\ level fst b j z' h) -> z' = z) /\
  (sagittal_focus a i b j = None <-> vx i / vz i = vx j / vz j) /\
  (forall z, axial_focus a i = Some z -> level snd a i z 0 /\ forall z', level snd a i z' 0 -> z' = z) /\
  (axial_focus a i = None <-> vy i = 0).
Proof.
  intros ZA ZB NI NJ.
  assert (SI : slope i = Some (vx i / vz i, vy i / vz i)) by (apply slope_some; auto).
  assert (SJ : slope j = Some (vx j / vz j, vy j / vz j)) by (apply slope_some; auto).
  assert (LV : forall f y k z h, (f = fst \/ f = snd) -> vz y = 0 -> vz k <> 0 -> level f y k z h <-> h = f (vx y, vy y) + z * (f (vx k, vy k) / vz k)).
  { intros f y k z h F ZY NK. assert (SK : slope k = Some (vx k / vz k, vy k / vz k)) by (apply slope_some; auto). split.
    - intros (c & C & <-). rewrite (crosses_unique _ _ _ _ _ NK C (crosses_slope _ _ _ z ZY SK)). destruct F as [-> | ->]; reflexivity.
    - intros ->. eexists. split; [apply (crosses_slope _ _ _ z ZY SK)|]. destruct F as [-> | ->]; reflexivity. }
  assert (FO : forall f (x y p q z : R), (f = fst \/ f = snd) -> x = f (vx a, vy a) -> y = f (vx b, vy b) -> p = f (vx i, vy i) / vz i -> q = f (vx j, vy j) / vz j ->
    fdiv (- (y - x)) (q - p) = Some z -> (exists h, level f a i z h /\ level f b j z h) /\ forall z', (exists h, level f a i z' h /\ level f b j z' h) -> z' = z).
  { intros f x y p q z F X Y P Q D. apply fdiv_inv in D. destruct D as (D & ->). split.
    - eexists. rewrite !LV by auto. split; [reflexivity|]. rewrite <- X, <- Y, <- P, <- Q. field. auto.
    - intros z' (h & A & B). apply LV in A; auto. apply LV in B; auto. rewrite <- X, <- P in A. rewrite <- Y, <- Q in B.
      apply (Rmult_eq_reg_r (q - p)); auto. unfold Rdiv. rewrite Rmult_assoc, Rinv_l by auto. lra. }
  assert (NO : forall u p q, fdiv u (q - p) = None <-> p = q).
  { intros u p q. destruct (Req_EM_T (q - p) 0) as [E|E]; [rewrite E, fdiv_zero; split; [lra|auto]|rewrite fdiv_some by auto; split; [discriminate|lra]]. }
  unfold tangential_focus, sagittal_focus, axial_focus. rewrite SI, SJ. cbn [obind fst snd]. split; [|split; [|split; [|split; [|split]]]].
  - intros z. apply (FO snd); auto.
  - apply NO.
  - intros z. apply (FO fst); auto.
  - apply NO.
  - intros z D. apply fdiv_inv in D. destruct D as (D & ->). assert (VN : vy i <> 0) by (intros V0; apply D; rewrite V0; field; auto).
    split; [rewrite LV by auto; cbn [snd]; field; auto|]. intros z' H. apply LV in H; auto. cbn [snd] in H.
    + apply (Rmult_eq_reg_r (vy i / vz i)); auto. unfold Rdiv at 2. rewrite Rmult_assoc, Rinv_l by auto. lra.
  - destruct (Req_EM_T (vy i) 0) as [E|E]; [rewrite E; unfold Rdiv; rewrite Rmult_0_l, fdiv_zero by reflexivity; tauto|].
    rewrite fdiv_some; [split; [discriminate|lra]|]. apply Rmult_integral_contrapositive_currified; [auto|apply Rinv_neq_0_compat; auto].
Qed.
Example C66_foci_example : tangential_focus (V 0 1 0) (V 0 (3/5) (4/5)) (V 0 2 0) ez = Some (- (2 - 1) / (0 / 1 - 3 / 5 / (4 / 5))) /\
  axial_focus (V 0 1 0) (V 0 (3/5) (-4/5)) = Some (- (1) / (3 / 5 / (-4 / 5))).
Proof.
  unfold tangential_focus, axial_focus, slope. cbn [vx vy vz ez]. rewrite !fdiv_some by lra. cbn [obind fst snd]. rewrite !fdiv_some by lra. auto.
Qed.

(** one direction alone: right in front of the image, but with the sign of the focus lost behind an odd number of
    mirrors, and wrong for rays out of the meridional plane *)
Theorem C66_colour_focus a i : vz a = 0 -> dot i i = 1 -> vx i = 0 -> vy i <> 0 -> 0 < vz i ->
  colour_focus a i = axial_focus a i /\ exists z, colour_focus a i = Some z /\ level snd a i z 0.
Proof.
  intros ZA UU X0 Y0 ZP. assert (Q : 1 - vy i * vy i = vz i * vz i) by (unfold dot in UU; rewrite X0 in UU; lra).
  assert (E : colour_focus a i = axial_focus a i).
  { unfold colour_focus, axial_focus, tanarcsin, slope. rewrite Q. rewrite fsqrt_some by nra. cbn [obind]. rewrite sqrt_square by lra. rewrite !fdiv_some by lra. reflexivity. }
  split; [exact E|]. rewrite E. destruct (C66_foci a i a i ZA ZA ltac:(lra) ltac:(lra)) as (_ & _ & _ & _ & F & N).
  destruct (axial_focus a i) as [z|] eqn:G; [|exfalso; apply Y0, N; reflexivity]. exists z. split; [reflexivity|]. apply F. reflexivity.
Qed.
Example C66_colour_focus_example : colour_focus (V 0 1 0) (V 0 (3/5) (4/5)) = Some (- (1) / (3 / 5 / (4 / 5))).
Proof. unfold colour_focus, tanarcsin. cbn [vx vy vz]. rewrite fsqrt_some by lra. cbn [obind]. replace (1 - 3/5 * (3/5)) with (4/5 * (4/5)) by lra. rewrite sqrt_square by lra. rewrite !fdiv_some by lra. cbn [obind]. rewrite fdiv_some by lra. reflexivity. Qed.
Theorem C66_colour_focus_refuted : exists a i z, vz a = 0 /\ dot i i = 1 /\ vx i = 0 /\ vz i < 0 /\
  axial_focus a i = Some z /\ colour_focus a i = Some (- z) /\ z <> 0.
Proof.
  exists (V 0 1 0), (V 0 (3/5) (-4/5)), (- (1) / (3 / 5 / (-4 / 5))). unfold dot. cbn [vx vy vz]. repeat (split; [lra|]).
  split; [|split; [|unfold Rdiv; repeat apply Rmult_integral_contrapositive_currified; try lra; apply Rinv_neq_0_compat; repeat apply Rmult_integral_contrapositive_currified; lra]].
  - unfold axial_focus, slope. cbn [vx vy vz]. rewrite !fdiv_some by lra. cbn [obind fst snd]. apply fdiv_some. lra.
  - unfold colour_focus, tanarcsin. cbn [vx vy vz]. replace (1 - 3/5 * (3/5)) with (4/5 * (4/5)) by lra. rewrite fsqrt_some by lra. cbn [obind]. rewrite sqrt_square by lra.
    rewrite fdiv_some by lra. cbn [obind]. rewrite fdiv_some by lra. f_equal. field.
Qed.
(** shifts against the first wavelength *)
Theorem C66_colour_shift z0 zs k : nth_error (colour_shift (Some z0 :: zs)) k = option_map (fun z => do z <- z; Some (z - z0)) (nth_error zs k).
Proof. cbn [colour_shift]. apply nth_error_map. Qed.
Example C66_colour_shift_example : colour_shift [Some 2; Some 5; None] = [Some (5 - 2); None].
Proof. reflexivity. Qed.

(** * the rows of rays_line *)
(** every field point sends its chief, its meridional and its sagittal ray to the same place of the three bundles, all
    aimed at the pupil found for that field point *)
Theorem C66_rays_line {A Z : Type} (aim : R * R -> Z -> R * R -> A) (chief : R * R -> Z -> Z) yo nrays eps z a b c :
  split3 nrays (rays_line aim chief yo nrays eps z) = (a, b, c) ->
  length a = nrays /\ length b = nrays /\ length c = nrays /\
  exists zs : nat -> Z, zs 0%nat = z /\ forall k, (k < nrays)%nat ->
    exists s, nth_error (linspace 0 1 nrays) k = Some s /\ let y := (s * fst yo, s * snd yo) in
    zs (S k) = chief y (zs k) /\
    nth_error a k = Some (aim y (zs (S k)) (0, 0)) /\ nth_error b k = Some (aim y (zs (S k)) (0, eps)) /\
    nth_error c k = Some (aim y (zs (S k)) (eps, 0)).
Proof.
  set (rows := line_rows aim chief eps z (map (fun s => (s * fst yo, s * snd yo)) (linspace 0 1 nrays))).
  assert (LR : forall ys z, length (line_rows aim chief eps z ys) = length ys) by (clear; induction ys; intros; cbn; auto).
  assert (L : length rows = nrays) by (unfold rows; rewrite LR, map_length; apply linspace_length).
  intros H. unfold split3, rays_line in H. fold rows in H.
  assert (SP : forall (x y w : list A), length x = nrays -> length y = nrays -> (firstn nrays (x ++ y ++ w), firstn nrays (skipn nrays (x ++ y ++ w)), skipn (2 * nrays) (x ++ y ++ w)) = (x, y, w)).
  { assert (CUT : forall (u v : list A) m, length u = m -> firstn m (u ++ v) = u /\ skipn m (u ++ v) = v).
    { clear. intros u v m <-. rewrite firstn_app, skipn_app, Nat.sub_diag, firstn_all, skipn_all. cbn. rewrite app_nil_r. auto. }
    intros x y w X Y. destruct (CUT x (y ++ w) nrays X) as (-> & ->). destruct (CUT y w nrays Y) as (-> & _).
    rewrite app_assoc. destruct (CUT (x ++ y) w (2 * nrays)%nat) as (_ & ->); [rewrite app_length; lia|]. reflexivity. }
  rewrite SP in H by (rewrite map_length; auto). injection H as <- <- <-. rewrite !map_length. do 3 (split; [auto|]).
  assert (G : forall ys z, exists zs : nat -> Z, zs 0%nat = z /\ forall k y, nth_error ys k = Some y -> zs (S k) = chief y (zs k) /\
    nth_error (line_rows aim chief eps z ys) k = Some (aim y (zs (S k)) (0, 0), aim y (zs (S k)) (0, eps), aim y (zs (S k)) (eps, 0))).
  { clear. induction ys as [|y ys IH]; intros z; [exists (fun _ => z); split; [auto|]; intros [|k] y E; discriminate|].
    destruct (IH (chief y z)) as (zs & Z0 & ZS). exists (fun k => match k with O => z | S k => zs k end). split; [reflexivity|].
    intros [|k] q E; cbn [nth_error line_rows] in *; [injection E as <-; rewrite Z0; auto|]. apply ZS. exact E. }
  destruct (G (map (fun s => (s * fst yo, s * snd yo)) (linspace 0 1 nrays)) z) as (zs & Z0 & ZS). exists zs. split; [auto|]. intros k K.
  destruct (nth_error (linspace 0 1 nrays) k) as [s|] eqn:E; [|apply nth_error_None in E; rewrite linspace_length in E; lia].
  exists s. split; [reflexivity|]. cbv zeta. destruct (ZS k (s * fst yo, s * snd yo)) as (Z1 & ROW); [rewrite nth_error_map, E; reflexivity|].
  fold rows in ROW. split; [exact Z1|]. rewrite !nth_error_map, ROW. auto.
Qed.
Example C66_rays_line_example : let '(a, b, c) := split3 2 (rays_line (fun y z e => (y, z, e)) (fun y (z : nat) => S z) (0, 3) 2 2 0%nat) in
  length a = 2%nat /\ map (fun r => snd (fst r)) b = [1; 2]%nat /\ map (fun r => snd r) c = [(2, 0); (2, 0)].
Proof. cbn. auto. Qed.

(** ideal heights and distortion *)
Theorem C66_distortion a h d : distortion a h = Some d -> h <> 0 /\ vy a = h * (1 + d).
Proof. intros D. apply fdiv_inv in D. destruct D as (N & ->). split; [auto|]. field. auto. Qed.
Example C66_distortion_example : distortion (V 0 3 0) 2 = Some ((3 - 2) / 2).
Proof. apply fdiv_some. lra. Qed.
Theorem C66_heights height radius nrays k : (1 < nrays)%nat -> (k < nrays)%nat -> length (ideal_heights height radius nrays) = nrays /\
  nth_error (ideal_heights height radius nrays) k =
  Some (if Nat.eq_dec k 0 then None else Some (INR k / INR (nrays - 1) * height * radius)).
Proof.
  intros N K. destruct nrays as [|[|m]]; [lia|lia|]. replace (S (S m) - 1)%nat with (S m) by lia. unfold ideal_heights. cbn [linspace].
  assert (M : 0 < INR (S m)) by (apply lt_0_INR; lia).
  set (f := fun i : nat => 0 + INR i * ((height * radius - 0) / INR (S m))). change (seq 0 (S (S m))) with (0 :: seq 1 (S m))%nat. cbn [map].
  split; [cbn [length]; rewrite !map_length, seq_length; reflexivity|].
  destruct k as [|k]; [reflexivity|]. cbn [nth_error Nat.eq_dec]. rewrite !nth_error_map. rewrite (nth_error_nth' _ 0%nat) by (rewrite seq_length; lia). rewrite seq_nth by lia.
  cbn [option_map]. unfold f. replace (1 + k)%nat with (S k) by lia. destruct (Nat.eq_dec (S k) 0); [lia|]. do 2 f_equal. field. lra.
Qed.
Example C66_heights_example : nth_error (ideal_heights 1 5 21) 10 = Some (Some (INR 10 / INR 20 * 1 * 5)).
Proof. apply (C66_heights 1 5 21 10); lia. Qed.
(** the lateral colour curve is the difference of the distortions of the two colours, as a length, and vanishes exactly when
    both colours land at the same height *)
Theorem C66_lateral_colour a a0 h d d0 : distortion a h = Some d -> distortion a0 h = Some d0 -> lateral_colour a a0 = (d - d0) * h /\ (lateral_colour a a0 = 0 <-> vy a = vy a0).
Proof.
  unfold distortion, lateral_colour. intros A B. destruct (Req_dec h 0) as [->|N]; [rewrite fdiv_zero in A; discriminate|]. rewrite fdiv_some in A, B by auto. injection A as <-. injection B as <-.
  split; [field; auto|split; lra].
Qed.
Example C66_lateral_colour_example : lateral_colour (V 0 3 1) (V 0 1 1) = (1 / 2 - - (1 / 2)) * 2.
Proof. apply (C66_lateral_colour (V 0 3 1) (V 0 1 1) 2); unfold distortion; rewrite fdiv_some by lra; f_equal; cbn; field. Qed.

(** * the curves near the axis *)
(** image element: nothing refracts there *)
Definition passive (e : element) : Prop := match e_kind e with Plain => True | Sph m _ => m = None end.
Lemma passive_incoming newton es : forall y u n l c j e s w, nth_error es j = Some e -> passive e ->
  nth_error (sys_propagate newton es y u n l c) j = Some s -> st_u s = Some w -> st_i s = Some w.
Proof.
  induction es as [|e0 es IH]; intros y u n l c j e s w EJ PA SJ SU; [destruct j; discriminate|]. cbn [sys_propagate] in SJ.
  destruct (propagate newton e0 _ _ n l c) as [[[y1 u1] n1] t1] eqn:PR. destruct j as [|j]; cbn [nth_error] in EJ, SJ.
  - injection EJ as ->. injection SJ as <-. cbn [st_u st_i] in *. subst u1. unfold propagate in PR. unfold passive in PA.
    assert (CL : forall r q v, (if c then clip r q v else v) = Some w -> v = Some w).
    { intros r q v. destruct c; [|auto]. unfold clip. destruct q as [q|]; [|discriminate]. destruct r as [r|]; [|auto]. destruct (Rle_dec _ _); auto; discriminate. }
    destruct (e_kind e) as [|m s0].
    + injection PR as _ H _ _. apply CL in H. exact H.
    + subst m. cbn [get_n_mu] in PR. injection PR as _ H _ _. destruct (Req_EM_T 1 0); [lra|]. unfold refract in H. destruct (Req_EM_T 1 1); [|lra]. apply CL in H. exact H.
  - eapply IH; eauto.
Qed.

(** paraxial marginal and chief ray, surface coefficients and an image plane, where the marginal ray crosses the axis *)
Definition imaging axis l1 l2 l c n ym yc um uc e0 es rs xs j r : Prop :=
  centred e0 /\ Forall centred es /\ Forall (conic_refracting l c) es /\ 0 < n /\ um * yc - uc * ym <> 0 /\
  ptrace axis l (e0 :: es) (ym, yc) (um, uc) n = Some rs /\ aberrations l1 l2 (e0 :: es) rs = Some xs /\
  (exists e, nth_error es j = Some e /\ flat e /\ passive e) /\ nth_error rs (S j) = Some r /\ fst (ry r) = 0.
(** the exact ray to pupil point h*A of field point h*B arrives at [y] from direction [i] *)
Definition arrives newton l c n ym yc um uc e0 es (j : nat) (A B : R * R) (h : R) (y i : vec) : Prop :=
  exists s, nth_error (geo_trace newton (e0 :: es) (launch_Y (mix ym yc A B) h) (launch_U (scale2 (/ n) (mix um uc A B)) h) n l c) (S j) = Some s /\
    st_y s = Some y /\ st_i s = Some i.

Lemma arrival newton axis l1 l2 l c n ym yc um uc e0 es rs xs j r A B : imaging axis l1 l2 l c n ym yc um uc e0 es rs xs j r ->
  let f := firstn (S (S j)) xs in
  let E := error_pattern (column tsc f) (column cc f) (column tac f) (column tpc f) (column dc f) A B in
  let H := snd (ry r) in
  0 < rn r /\ fst (ru r) <> 0 /\
  exists Y I, near (fun h => arrives newton l c n ym yc um uc e0 es j A B h (Y h) (I h) /\ vz (Y h) = 0 /\ vz (I h) <> 0) /\
    tends (fun h => (vx (Y h) - h * (H * fst B)) / h ^ 3) (H * fst E) /\
    tends (fun h => (vy (Y h) - h * (H * snd B)) / h ^ 3) (H * snd E) /\
    tends (fun h => vx (I h) / vz (I h) / h) ((fst (ru r) * fst A + snd (ru r) * fst B) / rn r) /\
    tends (fun h => vy (I h) / vz (I h) / h) ((fst (ru r) * snd A + snd (ru r) * snd B) / rn r).
Proof.
  intros (C0 & FC & FR & N & LN & PT & AB & (e & EJ & FL & PA) & RJ & RZ) f E H.
  unfold ptrace in PT. destruct (ptrace_from _ _ _ _ _ _) as [rs1|] eqn:PT1; [|discriminate]. cbn [obind] in PT. injection PT as <-.
  unfold aberrations in AB. destruct (aberrations_from _ _ _ _ _ _) as [xs1|] eqn:AB1; [|discriminate]. cbn [obind] in AB. injection AB as <-.
  cbn [fst snd] in PT1. cbn [nth_error] in RJ.
  pose proof (launch_third n (mix ym yc A B) (mix um uc A B) N) as TH. unfold mix in TH at 3 4 5 6. cbn [fst snd] in TH.
  destruct (system_third newton axis l1 l2 es l c n _ _ ym yc um uc A B 0 0 0 0 rs1 0 xs1 FC FR N LN TH PT1 AB1 j e r EJ RJ)
    as (LL & Y' & U' & bx & by_ & qx & qy & T' & EX & EY & F & NN).
  fold H in LL, T'. rewrite RZ in *. rewrite Rmult_0_r, Rminus_0_r in *.
  assert (UM : fst (ru r) <> 0) by (intros Z; rewrite Z, Rmult_0_l in LL; auto).
  assert (CZ : curv e = 0) by (unfold flat, curv in *; destruct (e_kind e); auto).
  specialize (F CZ). rewrite <- LL in EX, EY.
  assert (PE : E = (total (fun x => pattern x A B fst) (firstn (S j) xs1), total (fun x => pattern x A B snd) (firstn (S j) xs1))).
  { unfold E, f. cbn [firstn]. rewrite !column_cons. cbn [no_coefs tsc cc tac tpc dc]. rewrite !Rplus_0_l. apply pattern_columns. }
  assert (BX : bx = H * fst E) by (rewrite PE; cbn [fst]; apply (Rmult_eq_reg_r (fst (ru r))); [lra|auto]).
  assert (BY : by_ = H * snd E) by (rewrite PE; cbn [snd]; apply (Rmult_eq_reg_r (fst (ru r))); [lra|auto]).
  assert (RN : 0 < rn r).
  { clear -PT1 RJ FC FR N. revert l c n rs1 j FR N PT1 RJ. generalize (V4 ym ym um um) (V4 yc yc uc uc). induction FC as [|e0 es CE FC IH]; intros m k l c n rs1 j FR N PT1 RJ.
    - cbn in PT1. injection PT1 as <-. destruct j; discriminate.
    - inversion FR as [|? ? RE RS]; subst. destruct (matrix_centred e0 l c n CE RE N) as (M & PM & MV). cbn [ptrace_from] in PT1. unfold propagate_paraxial in PT1. rewrite PM in PT1. cbn [obind] in PT1.
      assert (NP : 0 < index_after e0 n l).
      { unfold index_after. destruct RE as (_ & CK). destruct (e_kind e0) as [|[mt|] s]; auto. destruct CK as (_ & _ & _ & _ & MP). exact MP. }
      destruct (ptrace_from axis l es _ _ (index_after e0 n l)) as [rs2|] eqn:P2; [|discriminate]. cbn [obind] in PT1. injection PT1 as <-.
      destruct j as [|j]; cbn [nth_error] in RJ; [injection RJ as <-; exact NP|]. eapply (IH _ _ l c (index_after e0 n l)); eauto. }
  split; [exact RN|]. split; [exact UM|]. exists Y', U'.
  destruct T' as [_ (uz & (_ & _ & LZ)) _ (_ & JX) (_ & JY) (VX & _) (VY & _)]. cbn [vz ez] in LZ.
  split; [|split; [|split; [|split]]].
  - pose proof (lin_pos _ _ _ LZ Rlt_0_1) as PZ. eapply near_impl; [|exact (near_and _ _ PZ (near_and _ _ F NN))].
    intros h (P & Z & (s & H1 & H2 & H3 & _)). split; [|split; [exact Z|lra]]. exists s.
    destruct (centred_frame e0 C0) as (_ & _ & _ & FN). cbn [geo_trace nth_error]. rewrite !FN. split; [exact H1|]. split; [exact H2|].
    eapply passive_incoming; eauto.
  - rewrite <- BX. eapply tends_ext; [|exact JX]. eapply nearly_impl; [|exact (near_nearly _ F)]. intros h NZ Z. cbn in Z. rewrite Z, Rmult_0_l, Rminus_0_r. field. auto.
  - rewrite <- BY. eapply tends_ext; [|exact JY]. eapply nearly_impl; [|exact (near_nearly _ F)]. intros h NZ Z. cbn in Z. rewrite Z, Rmult_0_l, Rminus_0_r. field. auto.
  - eapply tends_ext; [|eapply tends_eq; [eapply tends_mult; [apply (tends_const (/ rn r))|exact VX]|field; lra]].
    eapply nearly_impl; [|exact (near_nearly _ (lin_pos _ _ _ LZ Rlt_0_1))]. intros h NZ P. cbn beta in P. field. repeat split; lra.
  - eapply tends_ext; [|eapply tends_eq; [eapply tends_mult; [apply (tends_const (/ rn r))|exact VY]|field; lra]].
    eapply nearly_impl; [|exact (near_nearly _ (lin_pos _ _ _ LZ Rlt_0_1))]. intros h NZ P. cbn beta in P. field. repeat split; lra.
Qed.
Lemma tends_pow3 h : h <> 0 -> h ^ 3 <> 0. Proof. intros. apply pow_nonzero. auto. Qed.
Lemma tends_quot f g a b : tends (fun h => f h / h ^ 3) a -> tends (fun h => g h / h) b -> b <> 0 ->
  nearly (fun h => g h <> 0) /\ tends (fun h => f h / g h / h ^ 2) (a / b).
Proof.
  intros F G N. pose proof (tends_nonzero _ _ G N) as NZ.
  assert (GN : nearly (fun h => g h <> 0)) by (eapply nearly_impl; [|exact NZ]; intros h H0 H E; apply H; rewrite E; field; auto).
  split; [exact GN|]. eapply tends_ext; [|exact (tends_div _ _ _ _ F G N)]. eapply nearly_impl; [|exact GN]. intros h H0 H. cbn beta in *. field. auto.
Qed.
Lemma nearly_exists (P : R -> Prop) : nearly P -> exists d, 0 < d /\ forall h, h <> 0 -> Rabs h < d -> P h.
Proof. intros (d & D & H). exists d. split; auto. Qed.

(** the longitudinal spherical aberration starts with the sum of the first column *)
Theorem C66_spherical newton axis l1 l2 l c n ym yc um uc e0 es rs xs j r : imaging axis l1 l2 l c n ym yc um uc e0 es rs xs j r ->
  exists Z, (exists d, 0 < d /\ forall h, h <> 0 -> Rabs h < d -> exists y i,
      arrives newton l c n ym yc um uc e0 es j (0, 1) (0, 0) h y i /\ axial_focus y i = Some (Z h)) /\
    limit1_in (fun h => Z h / h ^ 2) (fun h => h <> 0)
      (- (snd (ry r) * rn r / fst (ru r)) * column tsc (firstn (S (S j)) xs)) 0.
Proof.
  intros IM. destruct (arrival newton _ _ _ _ _ _ _ _ _ _ _ _ _ _ _ _ (0, 1) (0, 0) IM) as (RN & UM & Y & I & NE & _ & TY & _ & TI). cbn [fst snd] in *.
  assert (TY' : tends (fun h => - vy (Y h) / h ^ 3) (- (snd (ry r) * column tsc (firstn (S (S j)) xs)))).
  { eapply tends_ext; [|eapply tends_eq; [exact (tends_opp _ _ TY)|]].
    - apply all_nearly. intros h H. field. auto.
    - unfold error_pattern, mix, inner. cbn [fst snd]. ring. }
  replace (fst (ru r) * 1 + snd (ru r) * 0) with (fst (ru r)) in TI by ring.
  assert (B0 : fst (ru r) / rn r <> 0).
  { apply Rmult_integral_contrapositive_currified; [auto|apply Rinv_neq_0_compat; lra]. }
  destruct (tends_quot _ _ _ _ TY' TI B0) as (NZ & LIM).
  exists (fun h => - vy (Y h) / (vy (I h) / vz (I h))). split.
  - apply nearly_exists. eapply nearly_impl; [|exact (nearly_and _ _ (near_nearly _ NE) NZ)]. intros h H ((AR & Z & VN) & SN). cbn beta in *.
    exists (Y h), (I h). split; [exact AR|]. unfold axial_focus. rewrite (proj2 (slope_some _ _) (Logic.conj VN eq_refl)). cbn [obind snd]. apply fdiv_some. exact SN.
  - eapply tends_eq; [exact LIM|]. field. split; [auto|lra].
Qed.

(** the plotted distortion starts with the last column: relative to the paraxial image height *)
Theorem C66_distortion_limit newton axis l1 l2 l c n ym yc um uc e0 es rs xs j r b : imaging axis l1 l2 l c n ym yc um uc e0 es rs xs j r -> b <> 0 ->
  snd (ry r) <> 0 /\
  exists D, (exists d, 0 < d /\ forall h, h <> 0 -> Rabs h < d -> exists y i,
      arrives newton l c n ym yc um uc e0 es j (0, 0) (0, b) h y i /\ distortion y (h * (snd (ry r) * b)) = Some (D h)) /\
    limit1_in (fun h => D h / h ^ 2) (fun h => h <> 0) (column dc (firstn (S (S j)) xs) * b ^ 2) 0.
Proof.
  intros IM BN. destruct (arrival newton _ _ _ _ _ _ _ _ _ _ _ _ _ _ _ _ (0, 0) (0, b) IM) as (RN & UM & Y & I & NE & _ & TY & _ & _). cbn [fst snd] in *.
  assert (HN : snd (ry r) <> 0).
  { destruct IM as (_ & FC & FR & N & LN & PT & AB & (e & EJ & _) & RJ & RZ). unfold ptrace in PT. destruct (ptrace_from _ _ _ _ _ _) as [rs1|] eqn:PT1; [|discriminate]. cbn [obind] in PT. injection PT as <-.
    unfold aberrations in AB. destruct (aberrations_from _ _ _ _ _ _) as [xs1|] eqn:AB1; [|discriminate]. cbn [fst snd] in PT1. cbn [nth_error] in RJ.
    pose proof (launch_third n (mix ym yc (0,0) (0,0)) (mix um uc (0,0) (0,0)) N) as TH. unfold mix in TH at 3 4 5 6.
    destruct (system_third newton axis l1 l2 es l c n _ _ ym yc um uc (0,0) (0,0) 0 0 0 0 rs1 0 xs1 FC FR N LN TH PT1 AB1 j e r EJ RJ) as (LL & _).
    intros Z. rewrite Z, RZ in LL. lra. }
  split; [exact HN|].
  assert (TH : tends (fun h => h * (snd (ry r) * b) / h) (snd (ry r) * b)).
  { eapply tends_ext; [|apply (tends_const (snd (ry r) * b))]. apply all_nearly. intros h H. field. auto. }
  assert (B0 : snd (ry r) * b <> 0) by (apply Rmult_integral_contrapositive_currified; auto).
  destruct (tends_quot _ _ _ _ TY TH B0) as (NZ & LIM). eexists. split; [|eapply tends_eq; [exact LIM|]].
  - apply nearly_exists. eapply nearly_impl; [|exact (nearly_and _ _ (near_nearly _ NE) NZ)]. intros h H ((AR & Z & VN) & SN). cbn beta in *.
    exists (Y h), (I h). split; [exact AR|]. unfold distortion. apply fdiv_some. exact SN.
  - unfold error_pattern, mix, inner. cbn [fst snd]. field. auto.
Qed.

(** the field curves: chief ray and a ray [eps] beside it in the pupil.  For pupil and field shrunk together both foci
    start quadratically, with the sums for astigmatism and field curvature, and with spherical aberration and coma of
    the distance of the rays *)
Theorem C66_field_curves newton axis l1 l2 l c n ym yc um uc e0 es rs xs j r b eps : imaging axis l1 l2 l c n ym yc um uc e0 es rs xs j r -> eps <> 0 ->
  let f := firstn (S (S j)) xs in
  exists T S, (exists d, 0 < d /\ forall h, h <> 0 -> Rabs h < d -> exists y0 i0 y1 i1 y2 i2,
      arrives newton l c n ym yc um uc e0 es j (0, 0) (0, b) h y0 i0 /\
      arrives newton l c n ym yc um uc e0 es j (0, eps) (0, b) h y1 i1 /\
      arrives newton l c n ym yc um uc e0 es j (eps, 0) (0, b) h y2 i2 /\
      tangential_focus y0 i0 y1 i1 = Some (T h) /\ sagittal_focus y0 i0 y2 i2 = Some (S h)) /\
    limit1_in (fun h => T h / h ^ 2) (fun h => h <> 0) (- (snd (ry r) * rn r / fst (ru r)) *
      (column tsc f * eps ^ 2 + 3 * column cc f * eps * b + (3 * column tac f + column tpc f) * b ^ 2)) 0 /\
    limit1_in (fun h => S h / h ^ 2) (fun h => h <> 0) (- (snd (ry r) * rn r / fst (ru r)) *
      (column tsc f * eps ^ 2 + (column tac f + column tpc f) * b ^ 2)) 0.
Proof.
  intros IM EN f.
  destruct (arrival newton _ _ _ _ _ _ _ _ _ _ _ _ _ _ _ _ (0, 0) (0, b) IM) as (RN & UM & Y0 & I0 & NE0 & X0 & TY0 & XI0 & TI0).
  destruct (arrival newton _ _ _ _ _ _ _ _ _ _ _ _ _ _ _ _ (0, eps) (0, b) IM) as (_ & _ & Y1 & I1 & NE1 & X1 & TY1 & XI1 & TI1).
  destruct (arrival newton _ _ _ _ _ _ _ _ _ _ _ _ _ _ _ _ (eps, 0) (0, b) IM) as (_ & _ & Y2 & I2 & NE2 & X2 & TY2 & XI2 & TI2).
  fold f in X0, TY0, X1, TY1, X2, TY2. cbn [fst snd] in *.
  assert (UE : fst (ru r) * eps / rn r <> 0).
  { repeat apply Rmult_integral_contrapositive_currified; auto. apply Rinv_neq_0_compat. lra. }
  assert (P : tends (fun h => - (vy (Y1 h) - vy (Y0 h)) / h ^ 3) (- (snd (ry r) * (column tsc f * eps ^ 3 + 3 * column cc f * eps ^ 2 * b + (3 * column tac f + column tpc f) * eps * b ^ 2)))).
  { eapply tends_ext; [|eapply tends_eq; [exact (tends_opp _ _ (tends_minus _ _ _ _ TY1 TY0))|]].
    - apply all_nearly. intros h H. field. auto.
    - unfold error_pattern, mix, inner. cbn [fst snd]. ring. }
  assert (Q : tends (fun h => - (vx (Y2 h) - vx (Y0 h)) / h ^ 3) (- (snd (ry r) * (column tsc f * eps ^ 3 + (column tac f + column tpc f) * eps * b ^ 2)))).
  { eapply tends_ext; [|eapply tends_eq; [exact (tends_opp _ _ (tends_minus _ _ _ _ X2 X0))|]].
    - apply all_nearly. intros h H. field. auto.
    - unfold error_pattern, mix, inner. cbn [fst snd]. ring. }
  assert (PI : tends (fun h => (vy (I1 h) / vz (I1 h) - vy (I0 h) / vz (I0 h)) / h) (fst (ru r) * eps / rn r)).
  { eapply tends_ext; [|eapply tends_eq; [exact (tends_minus _ _ _ _ TI1 TI0)|field; lra]]. apply all_nearly. intros h H. unfold Rdiv. ring. }
  assert (QI : tends (fun h => (vx (I2 h) / vz (I2 h) - vx (I0 h) / vz (I0 h)) / h) (fst (ru r) * eps / rn r)).
  { eapply tends_ext; [|eapply tends_eq; [exact (tends_minus _ _ _ _ XI2 XI0)|field; lra]]. apply all_nearly. intros h H. unfold Rdiv. ring. }
  destruct (tends_quot _ _ _ _ P PI UE) as (NZ1 & LIM1). destruct (tends_quot _ _ _ _ Q QI UE) as (NZ2 & LIM2).
  eexists; eexists. split; [|split; [eapply tends_eq; [exact LIM1|]|eapply tends_eq; [exact LIM2|]]].
  - apply nearly_exists. eapply nearly_impl; [|exact (nearly_and _ _ (near_nearly _ (near_and _ _ NE0 (near_and _ _ NE1 NE2))) (nearly_and _ _ NZ1 NZ2))].
    intros h H (((A0 & _ & V0) & (A1 & _ & V1) & (A2 & _ & V2)) & N1 & N2). cbn beta in *.
    exists (Y0 h), (I0 h), (Y1 h), (I1 h), (Y2 h), (I2 h). do 3 (split; [auto|]).
    unfold tangential_focus, sagittal_focus. rewrite (proj2 (slope_some _ _) (Logic.conj V0 eq_refl)), (proj2 (slope_some _ _) (Logic.conj V1 eq_refl)), (proj2 (slope_some _ _) (Logic.conj V2 eq_refl)).
    cbn [obind fst snd]. split; apply fdiv_some; auto.
  - field. repeat split; auto. lra.
  - field. repeat split; auto. lra.
Qed.
Lemma demo_imaging : exists p0 p1, let e0 := El p0 None Plain in let es := [El p0 None (Sph (Some glass2) (Surf 1 0 None false)); El p1 None Plain] in
  imaging true 1 1 1 true 1 1 0 0 1 e0 es [PRow (1, 0) (0, 1) 1; PRow (1, 0) (-1, 1) 2; PRow (0, 1) (-1, 1) 2]
    [no_coefs; Coefs (- 1 / (8 * 1)) (- 1 / 8) (- (1) / 8) (- (1) / 4) (- 3 * 1 ^ 2 / 8) 0 0; no_coefs] 1 (PRow (0, 1) (-1, 1) 2).
Proof.
  destruct demo_system as (p0 & p1 & _ & _ & C0 & FC & FR & D). exists p0, p1. cbv zeta. destruct (D true 1 ltac:(lra)) as (PT & AB).
  unfold imaging. repeat (split; [solve [auto|lra]|]). split; [|split; reflexivity]. eexists. split; [reflexivity|]. split; exact I.
Qed.
(** a sphere in front of glass: parallel light focuses h^2/4 short, the fields are curved *)
Example C66_spherical_example newton : exists e0 es Z, (exists d, 0 < d /\ forall h, h <> 0 -> Rabs h < d -> exists y i,
    arrives newton 1 true 1 1 0 0 1 e0 es 1 (0, 1) (0, 0) h y i /\ axial_focus y i = Some (Z h)) /\
  limit1_in (fun h => Z h / h ^ 2) (fun h => h <> 0) (- 1 / 4) 0.
Proof.
  destruct demo_imaging as (p0 & p1 & IM). destruct (C66_spherical newton _ _ _ _ _ _ _ _ _ _ _ _ _ _ _ _ IM) as (Z & AR & LIM).
  do 2 eexists. exists Z. split; [exact AR|]. eapply tends_eq; [exact LIM|]. unfold column. cbn [firstn fold_right tsc no_coefs ry ru rn fst snd]. field.
Qed.
Example C66_distortion_limit_example newton : exists e0 es D, (exists d, 0 < d /\ forall h, h <> 0 -> Rabs h < d -> exists y i,
    arrives newton 1 true 1 1 0 0 1 e0 es 1 (0, 0) (0, 2) h y i /\ distortion y (h * (1 * 2)) = Some (D h)) /\
  limit1_in (fun h => D h / h ^ 2) (fun h => h <> 0) (- 3 / 2) 0.
Proof.
  destruct demo_imaging as (p0 & p1 & IM). destruct (C66_distortion_limit newton _ _ _ _ _ _ _ _ _ _ _ _ _ _ _ _ 2 IM ltac:(lra)) as (_ & D & AR & LIM).
  do 2 eexists. exists D. split; [exact AR|]. eapply tends_eq; [exact LIM|]. unfold column. cbn [firstn fold_right dc no_coefs]. field.
Qed.
Example C66_field_curves_example newton : exists e0 es T S, (exists d, 0 < d /\ forall h, h <> 0 -> Rabs h < d -> exists y0 i0 y1 i1 y2 i2,
    arrives newton 1 true 1 1 0 0 1 e0 es 1 (0, 0) (0, 1) h y0 i0 /\ arrives newton 1 true 1 1 0 0 1 e0 es 1 (0, 1) (0, 1) h y1 i1 /\
    arrives newton 1 true 1 1 0 0 1 e0 es 1 (1, 0) (0, 1) h y2 i2 /\
    tangential_focus y0 i0 y1 i1 = Some (T h) /\ sagittal_focus y0 i0 y2 i2 = Some (S h)) /\
  limit1_in (fun h => T h / h ^ 2) (fun h => h <> 0) (- 9 / 4) 0 /\ limit1_in (fun h => S h / h ^ 2) (fun h => h <> 0) (- 1) 0.
Proof.
  destruct demo_imaging as (p0 & p1 & IM). destruct (C66_field_curves newton _ _ _ _ _ _ _ _ _ _ _ _ _ _ _ _ 1 1 IM ltac:(lra)) as (T & S & AR & L1 & L2).
  do 2 eexists. exists T, S. split; [exact AR|]. split; [eapply tends_eq; [exact L1|]|eapply tends_eq; [exact L2|]]; unfold column; cbn [firstn fold_right tsc cc tac tpc no_coefs ry ru rn fst snd]; field.
Qed.
Example C66_transverse_example : exists curves, let rays := [BRay (V 0 1 0) (V 0 (3/5) (4/5)) (Some (V 0 3 0, ez)); BRay v0 ez (Some (V 0 2 0, ez)); BRay (V 1 0 0) ez None] in
  transverse 8 rays 1 = Some curves /\ fst (fst curves) = [(Some (1 + 8 * (3/5 / (4/5)) - (0 + 8 * (0 / 1))), Some (3 - 2))] /\
  Forall (fun r => vz (br_y0 r) = 0 /\ vz (br_u0 r) <> 0) rays.
Proof.
  eexists. cbv zeta. split; [reflexivity|]. split.
  - cbn [fst map firstn]. unfold pupil_position, at_pupil, landing, slope, oproj. cbn [br_y0 br_u0 br_end vx vy vz v0 ez]. rewrite !fdiv_some by lra. reflexivity.
  - repeat constructor; cbn; lra.
Qed.

(** * options *)
(** an option is refused exactly if there is no such attribute; switching [run] off works, switching it on does not *)
Theorem C66_options kwargs : (exists k v, In (k, v) kwargs /\ ~ In k (options ++ other_attributes)) \/
  analysis_init Method kwargs = match find (fun kv => String.eqb (fst kv) "run") (rev kwargs) with
    | None => Ran true | Some (_, true) => NotCallable | Some (_, false) => Ran false end.
Proof.
  assert (G : forall kw run, (exists k v, In (k, v) kw /\ ~ In k (options ++ other_attributes)) \/
    analysis_init run kw = match find (fun kv => String.eqb (fst kv) "run") (rev kw) with
    | None => analysis_init run [] | Some (_, true) => NotCallable | Some (_, false) => Ran false end).
  { induction kw as [|[k v] kw IH]; intros run; [right; reflexivity|]. cbn [analysis_init]. unfold has_attribute.
    destruct (existsb (String.eqb k) (options ++ other_attributes)) eqn:E.
    - destruct (IH (if String.eqb k "run" then Value v else run)) as [(k' & v' & I & N)|H]; [left; exists k', v'; split; [right; auto|auto]|].
      right. rewrite H. cbn [rev]. assert (FA : forall l (x : string * bool), find (fun kv => String.eqb (fst kv) "run") (l ++ [x]) = match find (fun kv => String.eqb (fst kv) "run") l with Some y => Some y | None => if String.eqb (fst x) "run" then Some x else None end).
      { clear. induction l as [|y l IH]; intros x; cbn; [destruct (String.eqb (fst x) "run"); reflexivity|]. destruct (String.eqb (fst y) "run"); auto. }
      rewrite FA. destruct (find _ (rev kw)) as [[k' v']|]; [reflexivity|]. cbn [fst]. destruct (String.eqb k "run"); cbn [analysis_init]; [destruct v; reflexivity|reflexivity].
    - left. exists k, v. split; [left; reflexivity|]. intros I. rewrite <- not_true_iff_false in E. apply E. apply existsb_exists. exists k. split; [auto|apply String.eqb_refl]. }
  exact (G kwargs Method).
Qed.
Theorem C66_unknown_option kwargs k : analysis_init Method kwargs = NoOption k -> (exists v, In (k, v) kwargs) /\ ~ In k (options ++ other_attributes).
Proof.
  assert (G : forall kw run, analysis_init run kw = NoOption k -> (exists v, In (k, v) kw) /\ ~ In k (options ++ other_attributes)).
  { induction kw as [|[q v] kw IH]; intros run H; [destruct run as [|[|]]; discriminate|]. cbn [analysis_init] in H. unfold has_attribute in H. destruct (existsb _ _) eqn:E.
    - destruct (IH _ H) as ((v' & I) & N). split; [exists v'; right; auto|auto].
    - injection H as ->. split; [exists v; left; reflexivity|]. intros I. rewrite <- not_true_iff_false in E. apply E. apply existsb_exists. exists k. split; [auto|apply String.eqb_refl]. }
  apply G.
Qed.
Example C66_unknown_option_example : analysis_init Method [("print", false); ("plot_spot", true)]%string = NoOption "plot_spot". Proof. reflexivity. Qed.
Theorem C66_run_option_refuted : analysis_init Method [] = Ran true /\ analysis_init Method [("run"%string, true)] = NotCallable. Proof. split; reflexivity. Qed.
Example C66_options_example : analysis_init Method [("print", false); ("run", false)]%string = Ran false. Proof. reflexivity. Qed.
