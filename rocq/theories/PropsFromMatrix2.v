(** Property C76, continued: projections and shears. *)
From Coq Require Import Reals List Bool Lra Lia Psatz.
From Verif Require Import Base Vec RotModel RotProofs PlacementModel PupilModel PropsSums AffineModel PropsAffine DecomposeModel PropsDecompose PropsDecompose3 PropsFromMatrix.
Import ListNotations.
Open Scope R_scope.

Lemma near_zero_self : Rabs (0 - 0) < tol8. Proof. rewrite Rminus_eq_0, Rabs_R0. apply tol8_small. Qed.
(** the kernel of a projection: the first eigenvector to an eigenvalue near 0 *)
Lemma kernel a k l : eig3_ok a l -> k <> v0 -> mv a k = v0 -> (forall v, mv a (mv a v) = mv a v) ->
  exists f, first (near 0 tol8 l) = Some f /\ dot (ev f) (ev f) = 1 /\ mv a (ev f) = v0.
Proof.
  intros (_ & F & C & _) K MK Q. destruct (C 0 k K) as (e & I & W & _). { rewrite MK. clear. vec_ring. }
  destruct (first_in (near 0 tol8 l)) as (f & G1 & G2). { apply (in_nonempty _ e). rewrite near_in, W. split; [auto|apply near_zero_self]. }
  exists f. split; [exact G1|]. apply near_in in G2. destruct G2 as (G2 & G3). rewrite Forall_forall in F. destruct (quadratic3 a 1 0 f) as (_ & X & _ & UF & EF); [lra| |auto|].
  { intros v. rewrite Q. generalize (mv a v). clear. intros w. vec_ring. }
  split; [exact UF|]. destruct X as [X|X]; [|rewrite EF, X; clear; generalize (ev f); intros; vec_ring]. exfalso. rewrite X, Rminus_0_r, Rabs_R1 in G3. pose proof tol8_small. lra.
Qed.
(** a parallel projection: plane and direction are found *)
Theorem C76_parallel eig3 eig4 point normal direction m : let d := match direction with Some d => d | None => normal end in
  projection_matrix point normal direction None false = Some m -> eig3_ok (hl m) (eig3 (hl m)) -> eig3_ok (mT (hl m)) (eig3 (mT (hl m))) -> eig4_ok m (eig4 m) ->
  (exists e, In e (eig4 m) /\ h4 (ev e) = 0 /\ projection_from_matrix eig3 eig4 m false = None) \/
  (exists p n u, projection_from_matrix eig3 eig4 m false = Some (p, n, Some u, None, false) /\ dot n n = 1 /\ dot u u = 1 /\ on_plane point normal p /\ parallel normal n /\ parallel d u /\
     projection_matrix p n (Some u) None false = Some m).
Proof.
  cbv zeta. intros E K3 K3T K4. unfold projection_matrix in E. destruct (unit_vector normal) as [n|] eqn:U; [|discriminate]. cbn [obind] in E. destruct (unit_parallel normal n U) as (D & NN & NK & _).
  set (d := match direction with Some d => d | None => normal end). set (g := match direction with Some d => d | None => n end).
  assert (GD : exists c, c <> 0 /\ d = vmul3 c g). { unfold d, g. destruct direction as [v|]; [exists 1; split; [lra|clear; vec_ring]|exists (norm normal); auto]. }
  assert (X : exists s, s = dot g n /\ s <> 0 /\ m = HM (madd eye (mscale (- (1) / s) (outer g n))) (vmul3 (dot point n / s) g) v0 1).
  { exists (dot g n). split; [reflexivity|]. unfold g. destruct direction as [v|].
    - destruct (Req_EM_T (dot v n) 0); [discriminate|]. apply some_inj in E. split; auto.
    - rewrite D. split; [lra|]. apply some_inj in E. rewrite <- E. f_equal; [f_equal; f_equal; lra|f_equal; lra]. }
  clear E. destruct X as (s & S & S0 & ->). cbn [hl] in *. clearbody g. set (l := madd eye (mscale (- (1) / s) (outer g n))) in *. set (t := vmul3 (dot point n / s) g) in *.
  assert (ML : forall v, mv l v = vsub3 v (vmul3 (dot n v / s) g)) by (clear; intros v; unfold l, Rdiv; mat_ring).
  assert (MT : forall v, mv (mT l) v = vsub3 v (vmul3 (dot g v / s) n)) by (clear; intros v; unfold l, Rdiv; mat_ring).
  assert (GS : dot n g = s) by (rewrite S; apply dot_comm). assert (G0 : g <> v0) by (intros Z; rewrite Z in S; apply S0; rewrite S; clear; vec_ring). assert (N0 : n <> v0) by (intros Z; rewrite Z in D; unfold dot in D; cbn in D; lra).
  assert (FX : vadd3 (mv l point) t = point) by (rewrite ML; unfold t; rewrite (dot_comm point n); clear; generalize (dot n point / s); intros; vec_ring).
  destruct (fixed_point l t point _ K4 FX) as (p & P & IP & P0 & P1).
  destruct (kernel l g _ K3) as (f & F1 & UF & KF); [auto| | |]. { rewrite ML, GS. replace (s / s) with 1 by (field; auto). clear. vec_ring. } { intros v. rewrite !ML, sub_dot_r, dot_scale_r, GS. replace ((dot n v - dot n v / s * s) / s) with 0 by (field; auto). clear. generalize (dot n v / s). intros. vec_ring. }
  destruct (kernel (mT l) n _ K3T) as (h & H1 & UH & KH); [auto| | |]. { rewrite MT, <- S. replace (s / s) with 1 by (field; auto). clear. vec_ring. } { intros v. rewrite !MT, sub_dot_r, dot_scale_r, <- S. replace ((dot g v - dot g v / s * s) / s) with 0 by (field; auto). clear. generalize (dot g v / s). intros. vec_ring. }
  assert (SUB : forall a b, vsub3 a b = v0 -> a = b) by (clear; intros a b H; apply vec_eq; [apply (f_equal vx) in H|apply (f_equal vy) in H|apply (f_equal vz) in H]; cbn in *; lra).
  rewrite ML in KF. apply SUB in KF. rewrite MT in KH. apply SUB in KH.
  set (kf := dot n (ev f) / s) in *. set (kh := dot g (ev h) / s) in *. assert (KH2 : kh * kh = 1) by (rewrite KH in UH; rewrite dot_scale_l, dot_scale_r, D in UH; lra).
  assert (KF0 : kf <> 0) by (intros Z; rewrite KF, Z in UF; revert UF; clear; intros UF; assert (0 = 1) by (rewrite <- UF; vec_ring); lra). clearbody kf kh.
  unfold projection_from_matrix. rewrite P. cbn [hl]. destruct (Req_dec (h4 (ev p)) 0) as [Z0|Z0].
  - left. exists p. split; [exact IP|]. split; [exact Z0|]. rewrite (P0 Z0). reflexivity.
  - right. destruct (P1 Z0) as (x & X1 & X2). rewrite X1. cbn [obind]. rewrite F1. cbn [obind]. rewrite (unit_vector_unit _ UF). cbn [obind]. rewrite H1, (unit_vector_unit _ UH). cbn [obind]. exists x, (ev h), (ev f). split; [reflexivity|]. split; [exact UH|]. split; [exact UF|].
    assert (OX : dot n x = dot n point).
    { rewrite ML in X2. apply (f_equal (dot n)) in X2. rewrite dot_add_r, sub_dot_r, dot_scale_r, GS in X2. unfold t in X2. rewrite dot_scale_r, GS, (dot_comm point n) in X2. replace (dot n x / s * s) with (dot n x) in X2 by (field; auto). replace (dot n point / s * s) with (dot n point) in X2 by (field; auto). lra. }
    split; [rewrite (plane_unit_iff _ _ _ _ U); unfold on_plane; rewrite sub_dot_r, OX; ring|]. split; [rewrite (parallel_unit_iff _ _ _ U), KH; apply parallel_scale|]. split.
    { destruct GD as (c & _ & ->). rewrite KF. unfold parallel. clear. vec_ring. }
    unfold projection_matrix. rewrite (unit_vector_unit _ UH). cbn [obind]. rewrite KF, KH, dot_scale_l, dot_scale_r, <- S, (dot_scale_r kh x n), (dot_comm x n), OX.
    assert (KHF : kf * (kh * s) <> 0). { apply Rmult_integral_contrapositive. split; [auto|]. apply Rmult_integral_contrapositive. split; [intros Z; rewrite Z in KH2; lra|auto]. }
    destruct (Req_EM_T (kf * (kh * s)) 0); [contradiction|]. assert (KH0 : kh <> 0) by (intros Z; rewrite Z in KH2; lra). f_equal. f_equal.
    + unfold l. replace (outer (vmul3 kf g) (vmul3 kh n)) with (mscale (kf * kh) (outer g n)) by (clear; mat_ring). replace (mscale (- (1) / (kf * (kh * s))) (mscale (kf * kh) (outer g n))) with (mscale (- (1) / (kf * (kh * s)) * (kf * kh)) (outer g n)) by (clear; generalize (- (1) / (kf * (kh * s))) (kf * kh) (outer g n); intros; mat_ring).
      replace (- (1) / (kf * (kh * s)) * (kf * kh)) with (- (1) / s) by (field; auto). reflexivity.
    + unfold t. rewrite (dot_comm point n). replace (vmul3 (kh * dot n point / (kf * (kh * s))) (vmul3 kf g)) with (vmul3 (kh * dot n point / (kf * (kh * s)) * kf) g) by (clear; generalize (kh * dot n point / (kf * (kh * s))); intros; vec_ring). f_equal. field. auto.
Qed.

(** * perspective *)
(** the matrix of a perspective, or of a pseudo perspective with [q] for [p + n] *)
Lemma persp_mv n q c s w v k : dot n n = 1 -> hmv (HM (madd (M (V s 0 0) (V 0 s 0) (V 0 0 s)) (mscale (- (1)) (outer q n))) (vmul3 c q) (vneg n) w) (HV v k) =
  HV (vadd3 (vmul3 s v) (vmul3 (k * c - dot n v) q)) (w * k - dot n v).
Proof. intros _. unfold hmv. cbn [hl ht hp hw hv h4]. f_equal; mat_ring. Qed.
(** a perspective whose viewer is not at unit distance from the plane: viewer and plane are found, unless the plane contains the origin *)
Theorem C76_perspective eig3 eig4 point normal direction viewer m n : unit_vector normal = Some n -> projection_matrix point normal direction (Some viewer) false = Some m -> eig4_ok m (eig4 m) ->
  let s := dot n (vsub3 viewer point) in tol8 < Rabs s -> tol8 <= Rabs (s - 1) ->
  (exists e, In e (eig4 m) /\ h4 (ev e) = 0 /\ projection_from_matrix eig3 eig4 m false = None) \/
  (dot n point = 0 /\ projection_from_matrix eig3 eig4 m false = None) \/
  (dot n point <> 0 /\ exists p, projection_from_matrix eig3 eig4 m false = Some (p, n, None, Some viewer, false) /\ on_plane point normal p /\ projection_matrix p n None (Some viewer) false = Some m).
Proof.
  intros U E K4 s S1 S2. unfold projection_matrix in E. rewrite U in E. cbn [obind] in E. apply some_inj in E. destruct (unit_parallel normal n U) as (D & NN & NK & _). pose proof tol8_small as TS. rewrite (dot_comm (vsub3 viewer point) n) in E. fold s in E.
  assert (SD : s = dot n viewer - dot n point) by (unfold s; rewrite sub_dot_r; reflexivity). assert (S0 : s <> 0) by (intros Z; rewrite Z, Rabs_R0 in S1; lra). rewrite (dot_comm point n), (dot_comm viewer n) in E.
  assert (MV : forall v k, hmv m (HV v k) = HV (vadd3 (vmul3 s v) (vmul3 (k * dot n point - dot n v) viewer)) (dot n viewer * k - dot n v)) by (intros; rewrite <- E; apply persp_mv; auto).
  assert (Q : forall v, hmv m (hmv m v) = hadd (hscale (s + 0) (hmv m v)) (hscale (- (s * 0)) v)).
  { intros [v k]. rewrite !MV. unfold hadd, hscale. cbn [hv h4]. rewrite dot_add_r, !dot_scale_r. set (a := dot n v). set (b := dot n point) in *. set (w := dot n viewer) in *. clearbody s. subst s. clearbody a b w. clear. f_equal; [vec_ring|ring]. }
  destruct K4 as (_ & F & C). rewrite Forall_forall in F.
  assert (NE : near 1 tol8 (eig4 m) = []).
  { destruct (near 1 tol8 (eig4 m)) as [|f r] eqn:QQ; [reflexivity|]. exfalso. assert (I : In f (near 1 tol8 (eig4 m))) by (rewrite QQ; left; auto). apply near_in in I. destruct I as (I & J). destruct (quadratic4 m s 0 f S0 Q (F f I)) as (_ & [X|X] & _); rewrite X in J; [lra|].
    rewrite Rabs_minus_sym, Rminus_0_r, Rabs_R1 in J. lra. }
  destruct (C s (HV point 1)) as (e & I & W & _). { unfold h0. intros Z. injection Z. intros. lra. } { rewrite MV. unfold hscale. cbn [hv h4]. f_equal; [clear; generalize (dot n point); intros; vec_ring|rewrite SD; ring]. }
  destruct (final_in (beyond tol8 (eig4 m))) as (f & G1 & G2). { apply (in_nonempty _ e). rewrite beyond_in, W. auto. }
  apply beyond_in in G2. destruct G2 as (G2 & G3). destruct (quadratic4 m s 0 f S0 Q (F f G2)) as (_ & X & _ & UF & EF). assert (XF : ew f = s). { destruct X as [X|X]; [exact X|]. rewrite X, Rabs_R0 in G3. lra. } rewrite XF in EF.
  unfold projection_from_matrix. unfold final at 1. rewrite NE. cbn [rev first]. rewrite G1. cbn [obind]. destruct (ev f) as [v k] eqn:QV. rewrite MV in EF. unfold hscale in EF. cbn [hv h4] in EF. apply (f_equal h4) in EF as EK. cbn [h4] in EK.
  destruct (Req_dec k 0) as [K0|K0].
  - left. exists f. rewrite QV. split; [exact G2|]. split; [exact K0|]. unfold dehom. cbn [hv h4]. rewrite K0, fdiv_zero. reflexivity.
  - right. unfold dehom. cbn [hv h4]. rewrite !fdiv_some by auto. cbn [obind]. set (x := V (vx v / k) (vy v / k) (vz v / k)).
    assert (OX : dot n x = dot n point). { assert (VX : v = vmul3 k x) by (unfold x; apply vec_eq; cbn; field; auto). rewrite VX, dot_scale_r in EK. apply (Rmult_eq_reg_l k); [|auto]. rewrite SD in EK. lra. }
    assert (HPM : vneg (hp m) = n) by (rewrite <- E; cbn [hp]; clear; vec_ring). assert (HTM : ht m = vmul3 (dot n point) viewer) by (rewrite <- E; reflexivity). rewrite HPM, HTM, (dot_comm x n), OX. destruct (Req_dec (dot n point) 0) as [Z|Z].
    + left. split; [exact Z|]. rewrite Z, fdiv_zero. reflexivity.
    + right. split; [exact Z|]. rewrite !fdiv_some by auto. cbn [obind vmul3 vx vy vz]. replace (V (dot n point * vx viewer / dot n point) (dot n point * vy viewer / dot n point) (dot n point * vz viewer / dot n point)) with viewer by (destruct viewer; cbn; f_equal; field; auto).
      exists x. split; [reflexivity|]. split; [rewrite (plane_unit_iff _ _ _ _ U); unfold on_plane; rewrite sub_dot_r, OX; ring|]. unfold projection_matrix. rewrite (unit_vector_unit _ D). cbn [obind]. rewrite (dot_comm (vsub3 viewer x) n), sub_dot_r, (dot_comm x n), (dot_comm viewer n), OX, <- SD, E. reflexivity.
Qed.
(** a pseudo perspective: viewer and plane are found, unless the chosen eigenvector belongs to the eigenvalue -1 and the point is the viewer moved along
    the normal *)
Theorem C76_pseudo eig3 eig4 point normal direction viewer m n : unit_vector normal = Some n -> projection_matrix point normal direction (Some viewer) true = Some m -> eig4_ok m (eig4 m) ->
  let s := dot n (vsub3 viewer point) in tol8 < Rabs s -> s <> - (1) ->
  (exists e, In e (eig4 m) /\ h4 (ev e) = 0 /\ projection_from_matrix eig3 eig4 m true = None) \/
  (dot n point = 0 /\ projection_from_matrix eig3 eig4 m true = None) \/
  (dot n point <> 0 /\ exists p, projection_from_matrix eig3 eig4 m true = Some (p, n, None, Some viewer, true) /\ on_plane point normal p /\ projection_matrix p n None (Some viewer) true = Some m) \/
  (exists e, In e (eig4 m) /\ ew e = - (1) /\ forall r, projection_from_matrix eig3 eig4 m true = Some r -> exists u, r = (vadd3 viewer n, n, None, Some u, true)).
Proof.
  intros U E K4 s S1 S2. unfold projection_matrix in E. rewrite U in E. cbn [obind] in E. apply some_inj in E. destruct (unit_parallel normal n U) as (D & NN & NK & _). pose proof tol8_small as TS. rewrite (dot_comm (vsub3 viewer point) n) in E. fold s in E.
  set (q := vadd3 viewer n) in *. replace (madd (madd (M (V s 0 0) (V 0 s 0) (V 0 0 s)) (mscale (- (1)) (outer viewer n))) (mscale (- (1)) (outer n n))) with (madd (M (V s 0 0) (V 0 s 0) (V 0 0 s)) (mscale (- (1)) (outer q n))) in E by (unfold q; clear; generalize s; intros; mat_ring).
  assert (SD : s = dot n viewer - dot n point) by (unfold s; rewrite sub_dot_r; reflexivity). assert (S0 : s <> 0) by (intros Z; rewrite Z, Rabs_R0 in S1; lra). rewrite (dot_comm point n), (dot_comm viewer n) in E.
  assert (QN : dot n q = dot n viewer + 1) by (unfold q; rewrite dot_add_r, D; reflexivity).
  assert (MV : forall v k, hmv m (HV v k) = HV (vadd3 (vmul3 s v) (vmul3 (k * dot n point - dot n v) q)) (dot n viewer * k - dot n v)) by (intros; rewrite <- E; apply persp_mv; auto).
  assert (Q : forall v, hmv m (hmv m v) = hadd (hscale (s + - (1)) (hmv m v)) (hscale (- (s * - (1))) v)).
  { intros [v k]. rewrite !MV. unfold hadd, hscale. cbn [hv h4]. rewrite dot_add_r, !dot_scale_r, QN. set (a := dot n v). set (b := dot n point) in *. set (w := dot n viewer) in *. clearbody s. subst s. clearbody a b w q. clear. f_equal; [vec_ring|ring]. }
  destruct K4 as (_ & F & C). rewrite Forall_forall in F.
  destruct (C s (HV point 1)) as (e & I & W & _). { unfold h0. intros Z. injection Z. intros. lra. } { rewrite MV. unfold hscale. cbn [hv h4]. f_equal; [clear; clearbody q; generalize (dot n point); intros; vec_ring|rewrite SD; ring]. }
  destruct (final_in (beyond tol8 (eig4 m))) as (f & G1 & G2). { apply (in_nonempty _ e). rewrite beyond_in, W. auto. }
  apply beyond_in in G2. destruct G2 as (G2 & G3). destruct (quadratic4 m s (- (1)) f S2 Q (F f G2)) as (_ & X & _ & UF & EF).
  assert (HPM : vneg (hp m) = n) by (rewrite <- E; cbn [hp]; clear; vec_ring). assert (HTM : ht m = vmul3 (dot n point) q) by (rewrite <- E; reflexivity).
  unfold projection_from_matrix. rewrite G1. cbn [obind]. destruct (ev f) as [v k] eqn:QV. rewrite MV in EF. unfold hscale in EF. cbn [hv h4] in EF. assert (EK := f_equal h4 EF). assert (EV := f_equal hv EF). cbn [hv h4] in EK, EV.
  destruct (Req_dec k 0) as [K0|K0].
  { left. exists f. rewrite QV. split; [exact G2|]. split; [exact K0|]. unfold dehom. cbn [hv h4]. rewrite K0, fdiv_zero. reflexivity. }
  right. unfold dehom. cbn [hv h4]. rewrite !fdiv_some by auto. cbn [obind]. set (x := V (vx v / k) (vy v / k) (vz v / k)). assert (VX : v = vmul3 k x) by (unfold x; apply vec_eq; cbn; field; auto).
  rewrite HPM, HTM, (dot_comm x n). destruct X as [XF|XF]; rewrite XF in EK, EV.
  - assert (OX : dot n x = dot n point). { rewrite VX, dot_scale_r in EK. apply (Rmult_eq_reg_l k); [|auto]. rewrite SD in EK. lra. }
    rewrite OX. destruct (Req_dec (dot n point) 0) as [Z|Z].
    + left. split; [exact Z|]. rewrite Z, fdiv_zero. reflexivity.
    + right. left. split; [exact Z|]. rewrite !fdiv_some by auto. cbn [obind vmul3 vx vy vz]. replace (V (dot n point * vx q / dot n point) (dot n point * vy q / dot n point) (dot n point * vz q / dot n point)) with q by (destruct q; cbn; f_equal; field; auto).
      replace (vsub3 q n) with viewer by (unfold q; clear; vec_ring). exists x. split; [reflexivity|]. split; [rewrite (plane_unit_iff _ _ _ _ U); unfold on_plane; rewrite sub_dot_r, OX; ring|].
      unfold projection_matrix. rewrite (unit_vector_unit _ D). cbn [obind]. rewrite (dot_comm (vsub3 viewer x) n), sub_dot_r, (dot_comm x n), (dot_comm viewer n), OX, <- SD, <- E. fold q. f_equal. f_equal. unfold q. clear. generalize s. intros. mat_ring.
  - right. right. exists f. split; [exact G2|]. split; [exact XF|].
    assert (XQ : x = q).
    { rewrite VX in EK, EV. rewrite dot_scale_r in EK, EV. assert (OX : dot n x = dot n viewer + 1) by (apply (Rmult_eq_reg_l k); [|auto]; lra). rewrite OX in EV. assert (EV2 : vmul3 k (vmul3 (s + 1) (vsub3 x q)) = v0).
      { assert (Y : forall a, a = vmul3 (- (1)) (vmul3 k x) -> vadd3 a (vmul3 k x) = v0) by (clear; intros a ->; vec_ring). rewrite <- (Y _ EV). rewrite SD. clearbody x q. clear. generalize (dot n viewer) (dot n point). intros. vec_ring. }
      clear - EV2 K0 S2. clearbody x q. apply vec_eq; [apply (f_equal vx) in EV2|apply (f_equal vy) in EV2|apply (f_equal vz) in EV2]; cbn in EV2; apply Rmult_integral in EV2; destruct EV2 as [Y|Y]; try contradiction; apply Rmult_integral in Y; lra. }
    rewrite XQ. intros r. destruct (fdiv _ _) as [a|]; [|discriminate]. cbn [obind]. destruct (fdiv _ _) as [b|]; [|discriminate]. cbn [obind]. destruct (fdiv _ _) as [c|]; [|discriminate]. cbn [obind]. intros R. apply some_inj in R. eexists. rewrite <- R. reflexivity.
Qed.

(** * shears *)
Lemma longest_spec a b c : exists n, longest (- (1)) v0 [a; b; c] = (norm n, n) /\ (n = a \/ n = b \/ n = c) /\ norm a <= norm n /\ norm b <= norm n /\ norm c <= norm n.
Proof.
  pose proof (norm_nonneg a). cbn [longest]. destruct (Rlt_dec (- (1)) (norm a)); [|lra]. destruct (Rlt_dec (norm a) (norm b)).
  - destruct (Rlt_dec (norm b) (norm c)); eexists; (split; [reflexivity|]); (split; [auto|]); lra.
  - destruct (Rlt_dec (norm a) (norm c)); eexists; (split; [reflexivity|]); (split; [auto|]); lra.
Qed.
Theorem C76_shear eig3 eig4 angle direction point normal m : shear_matrix angle direction point normal = Some m -> dot normal direction = 0 -> sin angle <> 0 ->
  eig3_ok (hl m) (eig3 (hl m)) -> eig4_ok m (eig4 m) ->
  (exists e, In e (eig4 m) /\ h4 (ev e) = 0 /\ shear_from_matrix eig3 eig4 m = None) \/
  (exists a d p n, shear_from_matrix eig3 eig4 m = Some (a, d, p, n) /\ 0 < a < PI / 2 /\ dot d d = 1 /\ dot n n = 1 /\ parallel direction d /\ parallel normal n /\ on_plane point normal p /\
     shear_matrix a d p n = Some m).
Proof.
  intros E ND SA K3 K4. unfold shear_matrix in E. destruct (unit_vector normal) as [n|] eqn:U; [|discriminate]. cbn [obind] in E. destruct (unit_vector direction) as [d|] eqn:UD; [|discriminate]. cbn [obind] in E.
  destruct (unit_parallel normal n U) as (D & NN & NK & _). destruct (unit_parallel direction d UD) as (DD & DN & DK & _). destruct (Rlt_dec (1 / 1000000) (Rabs (dot n d))); [discriminate|].
  assert (O : dot n d = 0). { rewrite NN, DN, dot_scale_l, dot_scale_r in ND. apply Rmult_integral in ND. destruct ND as [ND|ND]; [contradiction|]. apply Rmult_integral in ND. tauto. }
  unfold ftan in E. destruct (Req_dec (cos angle) 0) as [CA|CA]; [rewrite CA, fdiv_zero in E; discriminate|]. rewrite fdiv_some in E by auto. cbn [obind] in E. change (sin angle / cos angle) with (tan angle) in E. apply some_inj in E. set (t := tan angle) in *. assert (T0 : t <> 0).
  { unfold t, tan. intros Z. apply SA. unfold Rdiv in Z. apply Rmult_integral in Z. destruct Z as [Z|Z]; [exact Z|]. exfalso. apply (Rinv_neq_0_compat _ CA Z). }
  clearbody t. set (l := madd eye (mscale t (outer d n))) in *. subst m. cbn [hl] in K3. set (w := vmul3 (- t * dot point n) d) in *.
  assert (ML : forall v, mv l v = vadd3 v (vmul3 (t * dot n v) d)) by (clear; intros v; unfold l; mat_ring).
  assert (FX : vadd3 (mv l point) w = point) by (rewrite ML; unfold w; rewrite (dot_comm point n); clear; generalize (dot n point); intros; vec_ring).
  destruct (fixed_point l w point _ K4 FX) as (p & P & IP & P0 & P1). destruct K3 as (L3 & F & _ & C2). rewrite Forall_forall in F.
  assert (EP : forall e, In e (eig3 l) -> ew e = 1 /\ ewi e = 0 /\ dot (ev e) (ev e) = 1 /\ dot n (ev e) = 0).
  { intros e I. specialize (F e I). destruct F as (UF & ZF & E1 & E2). destruct e as [x y u v]; cbn [ew ewi ev evi] in *. rewrite ML in E1, E2.
    assert (A1 : dot n u = x * dot n u - y * dot n v). { apply (f_equal (dot n)) in E1. rewrite sub_dot_r, dot_add_r, !dot_scale_r, O in E1. lra. }
    assert (A2 : dot n v = y * dot n u + x * dot n v). { apply (f_equal (dot n)) in E2. rewrite !dot_add_r, !dot_scale_r, O in E2. lra. }
    remember (dot n u) as nu eqn:QU. remember (dot n v) as nv eqn:QV.
    assert (A3 : ((x - 1) * (x - 1) + y * y) * nu = 0) by (replace (((x - 1) * (x - 1) + y * y) * nu) with ((x - 1) * ((x - 1) * nu - y * nv) + y * ((x - 1) * nv + y * nu)) by ring; replace ((x - 1) * nu - y * nv) with 0 by lra; replace ((x - 1) * nv + y * nu) with 0 by lra; ring).
    assert (A4 : ((x - 1) * (x - 1) + y * y) * nv = 0) by (replace (((x - 1) * (x - 1) + y * y) * nv) with ((x - 1) * ((x - 1) * nv + y * nu) - y * ((x - 1) * nu - y * nv)) by ring; replace ((x - 1) * nu - y * nv) with 0 by lra; replace ((x - 1) * nv + y * nu) with 0 by lra; ring).
    assert (X1 : x = 1 /\ y = 0).
    { destruct (Req_dec ((x - 1) * (x - 1) + y * y) 0) as [Z|Z]; [apply sq_sum in Z; lra|]. exfalso. apply Z. apply Rmult_integral in A3, A4. assert (N1 : nu = 0) by tauto. assert (N2 : nv = 0) by tauto. rewrite N1 in E1. rewrite N2 in E2.
      transitivity (((x - 1) * (x - 1) + y * y) * (dot u u + dot v v)); [rewrite UF; ring|].
      assert (Y1 : vsub3 (vmul3 (x - 1) u) (vmul3 y v) = v0). { assert (Y : forall a, vadd3 u (vmul3 (t * 0) d) = a -> vsub3 a u = v0) by (clear; intros a <-; vec_ring). rewrite <- (Y _ E1). clear. vec_ring. }
      assert (Y2 : vadd3 (vmul3 y u) (vmul3 (x - 1) v) = v0). { assert (Y : forall a, vadd3 v (vmul3 (t * 0) d) = a -> vsub3 a v = v0) by (clear; intros a <-; vec_ring). rewrite <- (Y _ E2). clear. vec_ring. }
      transitivity (dot (vsub3 (vmul3 (x - 1) u) (vmul3 y v)) (vsub3 (vmul3 (x - 1) u) (vmul3 y v)) + dot (vadd3 (vmul3 y u) (vmul3 (x - 1) v)) (vadd3 (vmul3 y u) (vmul3 (x - 1) v))); [clear; vec_ring|rewrite Y1, Y2; clear; vec_ring]. }
    destruct X1 as (-> & ->). split; [reflexivity|]. split; [reflexivity|]. specialize (ZF eq_refl). subst v. assert (UU : dot u u = 1) by (rewrite <- UF; clear; vec_ring). split; [exact UU|].
    assert (Y3 : vmul3 (t * nu) d = v0). { assert (Y : vsub3 (vadd3 u (vmul3 (t * nu) d)) u = v0) by (rewrite E1; clear; vec_ring). rewrite <- Y. clear. vec_ring. }
    apply (f_equal (dot d)) in Y3. rewrite dot_scale_r, DD in Y3. replace (dot d v0) with 0 in Y3 by (clear; vec_ring). rewrite Rmult_1_r in Y3. apply Rmult_integral in Y3. tauto. }
  assert (NE : near 1 (/ 10 ^ 4) (eig3 l) = eig3 l).
  { unfold near. assert (G : forall q, (forall e, In e q -> In e (eig3 l)) -> filter (fun e : epair vec => if Rlt_dec (Rabs (ew e - 1)) (/ 10 ^ 4) then true else false) q = q).
    { induction q as [|e q IH]; intros H; [reflexivity|]. cbn [filter]. destruct (EP e (H e (or_introl eq_refl))) as (W & _). rewrite W, Rminus_eq_0, Rabs_R0. destruct (Rlt_dec 0 (/ 10 ^ 4)) as [_|Z]; [rewrite IH; [reflexivity|intros x X; apply H; right; auto]|exfalso; apply Z; lra]. }
    apply G. auto. }
  destruct (C2 1 d (cross n d)) as (e & f & IE & IF & _ & _ & _ & _ & EF). { rewrite ML, O. clear. vec_ring. } { rewrite ML. replace (dot n (cross n d)) with 0 by (clear; vec_ring). clear. generalize (cross n d). intros. vec_ring. }
  { intros Z. assert (Y : cross d (cross n d) = n). { transitivity (vsub3 (vmul3 (dot d d) n) (vmul3 (dot n d) d)); [clear; vec_ring|rewrite DD, O; clear; vec_ring]. } rewrite Y in Z. rewrite Z in D. unfold dot in D; cbn in D; lra. }
  destruct (eig3 l) as [|e0 [|e1 [|e2 [|]]]] eqn:QL; try discriminate. destruct (EP e0) as (_ & _ & _ & N0); [left; auto|]. destruct (EP e1) as (_ & _ & _ & N1); [right; left; auto|]. destruct (EP e2) as (_ & _ & _ & N2); [right; right; left; auto|].
  destruct (longest_spec (cross (ev e0) (ev e1)) (cross (ev e0) (ev e2)) (cross (ev e1) (ev e2))) as (c & LC & IC & B0 & B1 & B2).
  assert (NC : norm c <> 0).
  { intros Z. assert (Q : forall a b, cross a b = v0 -> cross b a = v0) by (clear; intros a b H; replace (cross b a) with (vneg (cross a b)) by vec_ring; rewrite H; vec_ring). assert (S : forall a, cross a a = v0) by (clear; intros; vec_ring).
    assert (Y0 : cross (ev e0) (ev e1) = v0) by (apply norm_zero; pose proof (norm_nonneg (cross (ev e0) (ev e1))); lra). assert (Y1 : cross (ev e0) (ev e2) = v0) by (apply norm_zero; pose proof (norm_nonneg (cross (ev e0) (ev e2))); lra). assert (Y2 : cross (ev e1) (ev e2) = v0) by (apply norm_zero; pose proof (norm_nonneg (cross (ev e1) (ev e2))); lra).
    destruct IE as [<-|[<-|[<-|[]]]], IF as [<-|[<-|[<-|[]]]]; apply EF; auto. }
  assert (PC : parallel n c). { assert (Y : forall u v, dot n u = 0 -> dot n v = 0 -> parallel n (cross u v)) by (clear; intros u v A B; unfold parallel; transitivity (vsub3 (vmul3 (dot n v) u) (vmul3 (dot n u) v)); [vec_ring|rewrite A, B; vec_ring]). destruct IC as [->|[->| ->]]; auto. }
  assert (C0 : c <> v0) by (rewrite <- norm_zero; exact NC). destruct (unit_of c C0) as (_ & _ & UC & _). set (nn := vmul3 (/ norm c) c) in *.
  destruct (unit_sign n nn D UC) as (k & KK & VK). { apply parallel_unit; [exact D|]. unfold nn, parallel. replace (cross n (vmul3 (/ norm c) c)) with (vmul3 (/ norm c) (cross n c)) by (clear; generalize (/ norm c); intros; vec_ring). unfold parallel in PC. rewrite PC. clear. generalize (/ norm c). intros. vec_ring. }
  assert (DIR : mv (madd l (mscale (- (1)) eye)) nn = vmul3 (k * t) d). { rewrite VK. replace (mv (madd l (mscale (- (1)) eye)) (vmul3 k n)) with (vmul3 (k * t * dot n n) d) by (unfold l; clear; mat_ring). rewrite D, Rmult_1_r. reflexivity. }
  assert (NT : norm (vmul3 (k * t) d) = Rabs t). { unfold norm. rewrite dot_scale_l, dot_scale_r, DD. replace (k * t * (k * t * 1)) with (k * k * (t * t)) by ring. rewrite KK, Rmult_1_l. apply sqrt_Rsqr_abs. }
  assert (AT : Rabs t <> 0) by (apply Rabs_no_R0; auto). assert (TT : t / Rabs t * (t / Rabs t) = 1) by (unfold Rabs; destruct (Rcase_abs t); field; lra).
  unfold shear_from_matrix. cbn [hl]. rewrite QL, NE, LC. rewrite !fdiv_some by auto. cbn [obind]. replace (V (vx c / norm c) (vy c / norm c) (vz c / norm c)) with nn by (unfold nn; apply vec_eq; cbn; field; auto). rewrite DIR, NT, !fdiv_some by auto. cbn [obind].
  set (dd := V (vx (vmul3 (k * t) d) / Rabs t) (vy (vmul3 (k * t) d) / Rabs t) (vz (vmul3 (k * t) d) / Rabs t)). assert (DE : dd = vmul3 (k * (t / Rabs t)) d) by (unfold dd; apply vec_eq; cbn; field; auto).
  rewrite P. cbn [obind]. destruct (Req_dec (h4 (ev p)) 0) as [H0|H0].
  - left. exists p. split; [exact IP|]. split; [exact H0|]. rewrite (P0 H0). reflexivity.
  - right. destruct (P1 H0) as (x & X1 & X2). rewrite X1. cbn [obind]. exists (atan (Rabs t)), dd, x, nn. split; [reflexivity|].
    assert (PT : 0 < Rabs t) by (pose proof (Rabs_pos t); lra). assert (UDD : dot dd dd = 1). { rewrite DE, dot_scale_l, dot_scale_r, DD. replace (k * (t / Rabs t) * (k * (t / Rabs t) * 1)) with (k * k * (t / Rabs t * (t / Rabs t))) by ring. rewrite KK, TT. ring. }
    assert (AB : 0 < atan (Rabs t) < PI / 2). { split; [rewrite <- atan_0; apply atan_increasing; auto|apply atan_bound]. } split; [exact AB|]. split; [exact UDD|]. split; [exact UC|].
    split; [rewrite (parallel_unit_iff _ _ _ UD), DE; apply parallel_scale|]. split; [rewrite (parallel_unit_iff _ _ _ U), VK; apply parallel_scale|].
    assert (OX : dot n x = dot n point).
    { rewrite ML in X2. unfold w in X2. assert (Y : vmul3 (t * (dot n x - dot n point)) d = v0). { assert (Y : forall a, a = x -> vsub3 a x = v0) by (clear; intros a ->; vec_ring). rewrite <- (Y _ X2), (dot_comm point n). clear. generalize (dot n x) (dot n point). intros. vec_ring. }
      apply (f_equal (dot d)) in Y. rewrite dot_scale_r, DD in Y. replace (dot d v0) with 0 in Y by (clear; vec_ring). rewrite Rmult_1_r in Y. apply Rmult_integral in Y. destruct Y; [contradiction|lra]. }
    split; [rewrite (plane_unit_iff _ _ _ _ U); unfold on_plane; rewrite sub_dot_r, OX; ring|].
    unfold shear_matrix. rewrite (unit_vector_unit _ UC), (unit_vector_unit _ UDD). cbn [obind]. rewrite VK, DE, dot_scale_l, dot_scale_r, O, !Rmult_0_r, Rabs_R0. destruct (Rlt_dec (1 / 1000000) 0); [lra|]. unfold ftan. assert (CP : 0 < cos (atan (Rabs t))) by (apply cos_gt_0; lra). rewrite fdiv_some by lra. cbn [obind]. change (sin (atan (Rabs t)) / cos (atan (Rabs t))) with (tan (atan (Rabs t))). rewrite tan_atan. f_equal.
    assert (AA : Rabs t * (t / Rabs t) = t) by (field; auto). f_equal.
    + unfold l. replace (mscale (Rabs t) (outer (vmul3 (k * (t / Rabs t)) d) (vmul3 k n))) with (mscale (k * k * (Rabs t * (t / Rabs t))) (outer d n)) by (clear; generalize (t / Rabs t) (Rabs t); intros; mat_ring). rewrite KK, AA, Rmult_1_l. reflexivity.
    + unfold w. rewrite dot_scale_r, (dot_comm x n), OX, (dot_comm n point). transitivity (vmul3 (- (k * k * (Rabs t * (t / Rabs t))) * dot point n) d); [clear; generalize (t / Rabs t) (Rabs t) (dot point n); intros; vec_ring|rewrite KK, AA, Rmult_1_l; reflexivity].
Qed.
