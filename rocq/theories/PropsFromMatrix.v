(** Property C76: elementary transformations recognised from their matrix. *)
From Coq Require Import Reals List Bool Lra Lia Psatz.
From Verif Require Import Base Vec RotModel RotProofs PropsSums AffineModel PropsAffine DecomposeModel PropsDecompose PropsDecompose3.
Import ListNotations.
Open Scope R_scope.

(** * what the eigenvalue routine is trusted to return *)
Definition eigenpair3 (a : mat) (e : epair vec) : Prop :=
  dot (ev e) (ev e) + dot (evi e) (evi e) = 1 /\ (ewi e = 0 -> evi e = v0) /\
  mv a (ev e) = vsub3 (vmul3 (ew e) (ev e)) (vmul3 (ewi e) (evi e)) /\ mv a (evi e) = vadd3 (vmul3 (ewi e) (ev e)) (vmul3 (ew e) (evi e)).
(** three columns, each an eigenpair; every real eigenvalue is there, with two independent vectors if it has such *)
Definition eig3_ok (a : mat) (l : list (epair vec)) : Prop :=
  length l = 3%nat /\ Forall (eigenpair3 a) l /\
  (forall x v, v <> v0 -> mv a v = vmul3 x v -> exists e, In e l /\ ew e = x /\ ewi e = 0) /\
  (forall x u v, mv a u = vmul3 x u -> mv a v = vmul3 x v -> cross u v <> v0 ->
     exists e f, In e l /\ In f l /\ ew e = x /\ ewi e = 0 /\ ew f = x /\ ewi f = 0 /\ cross (ev e) (ev f) <> v0).
Definition hadd (p q : hvec) : hvec := HV (vadd3 (hv p) (hv q)) (h4 p + h4 q).
Definition hscale (s : R) (p : hvec) : hvec := HV (vmul3 s (hv p)) (s * h4 p).
Definition hdot (p q : hvec) : R := dot (hv p) (hv q) + h4 p * h4 q.
Definition h0 : hvec := HV v0 0.
Definition eigenpair4 (a : hmat) (e : epair hvec) : Prop :=
  hdot (ev e) (ev e) + hdot (evi e) (evi e) = 1 /\ (ewi e = 0 -> evi e = h0) /\
  hmv a (ev e) = hadd (hscale (ew e) (ev e)) (hscale (- ewi e) (evi e)) /\ hmv a (evi e) = hadd (hscale (ewi e) (ev e)) (hscale (ew e) (evi e)).
Definition eig4_ok (a : hmat) (l : list (epair hvec)) : Prop :=
  length l = 4%nat /\ Forall (eigenpair4 a) l /\
  (forall x v, v <> h0 -> hmv a v = hscale x v -> exists e, In e l /\ ew e = x /\ ewi e = 0).

(** * lemmas *)
Lemma tol8_small : 0 < tol8 < 1. Proof. unfold tol8. split; [apply Rinv_0_lt_compat; lra|]. replace 1 with (/ 1) by lra. apply Rinv_lt_contravar; lra. Qed.
Lemma near_in {A} x t (l : list (epair A)) e : In e (near x t l) <-> In e l /\ Rabs (ew e - x) < t.
Proof. unfold near. rewrite filter_In. destruct (Rlt_dec (Rabs (ew e - x)) t); split; intros (H1 & H2); split; auto; try discriminate; contradiction. Qed.
Lemma beyond_in {A} t (l : list (epair A)) e : In e (beyond t l) <-> In e l /\ t < Rabs (ew e).
Proof. unfold beyond. rewrite filter_In. destruct (Rlt_dec t (Rabs (ew e))); split; intros (H1 & H2); split; auto; try discriminate; contradiction. Qed.
Lemma first_in {A} (l : list A) : l <> [] -> exists e, first l = Some e /\ In e l.
Proof. destruct l as [|e l]; [contradiction|]. intros _. exists e. split; [reflexivity|left; auto]. Qed.
Lemma first_some {A} (l : list A) e : first l = Some e -> In e l.
Proof. destruct l as [|x l]; [discriminate|]. cbn. intros E. apply some_inj in E. left. auto. Qed.
Lemma final_in {A} (l : list A) : l <> [] -> exists e, final l = Some e /\ In e l.
Proof. intros N. destruct (first_in (rev l)) as (e & E & I). { intros Z. apply N. rewrite <- (rev_involutive l), Z. reflexivity. } exists e. split; [exact E|apply in_rev; auto]. Qed.
Lemma in_nonempty {A} (l : list A) e : In e l -> l <> []. Proof. intros I ->. destruct I. Qed.
Lemma hvec_eq p q : hv p = hv q -> h4 p = h4 q -> p = q. Proof. destruct p, q; cbn; intros; subst; reflexivity. Qed.
Lemma dot_zero v : dot v v = 0 -> v = v0.
Proof. destruct v as [x y z]. unfold dot; cbn. intros H. assert (x * x = 0 /\ y * y = 0 /\ z * z = 0) as (X & Y & Z) by nra. apply Rmult_integral in X, Y, Z. unfold v0. f_equal; tauto. Qed.
Lemma sq_sum a b : a * a + b * b = 0 -> a = 0 /\ b = 0.
Proof. intros H. pose proof (Rle_0_sqr a) as A. pose proof (Rle_0_sqr b) as B. unfold Rsqr in *. assert (X : a * a = 0) by lra. assert (Y : b * b = 0) by lra. apply Rmult_integral in X, Y. tauto. Qed.
(** a matrix satisfying a quadratic equation with two real roots has only these eigenvalues *)
Lemma two_roots (al be a b c d n : R) : al <> be -> c = (a - al) * (a - be) - b * b -> d = b * (2 * a - al - be) -> (c * c + d * d) * n = 0 -> n = 1 -> b = 0 /\ (a = al \/ a = be).
Proof.
  intros AB C D E N. subst n. rewrite Rmult_1_r in E. destruct (sq_sum c d E) as (C0 & D0). rewrite D in D0. apply Rmult_integral in D0. destruct D0 as [D0|D0].
  - split; [auto|]. rewrite D0 in C. assert (Z : (a - al) * (a - be) = 0) by lra. apply Rmult_integral in Z. lra.
  - exfalso. assert (a = (al + be) / 2) by lra. subst a. assert (Q : (al - be) * (al - be) / 4 + b * b = 0) by (rewrite C0 in C; nra). assert (0 < (al - be) * (al - be)) by nra. nra.
Qed.
Lemma quadratic3 a al be e : al <> be -> (forall v, mv a (mv a v) = vsub3 (vmul3 (al + be) (mv a v)) (vmul3 (al * be) v)) -> eigenpair3 a e ->
  ewi e = 0 /\ (ew e = al \/ ew e = be) /\ evi e = v0 /\ dot (ev e) (ev e) = 1 /\ mv a (ev e) = vmul3 (ew e) (ev e).
Proof.
  intros AB Q (U & Z & E1 & E2). destruct e as [x y u v]; cbn [ew ewi ev evi] in *.
  assert (H1 : vadd3 (vmul3 ((x - al) * (x - be) - y * y) u) (vmul3 (- (y * (2 * x - al - be))) v) = v0).
  { assert (M1 : forall s p t q, mv a (vsub3 (vmul3 s p) (vmul3 t q)) = vsub3 (vmul3 s (mv a p)) (vmul3 t (mv a q))) by (clear; intros; mat_ring). pose proof (Q u) as Qu. rewrite E1, M1, E1, E2 in Qu.
    apply (f_equal (fun w => vsub3 w (vsub3 (vmul3 (al + be) (vsub3 (vmul3 x u) (vmul3 y v))) (vmul3 (al * be) u)))) in Qu. replace v0 with (vsub3 (vsub3 (vmul3 (al + be) (vsub3 (vmul3 x u) (vmul3 y v))) (vmul3 (al * be) u)) (vsub3 (vmul3 (al + be) (vsub3 (vmul3 x u) (vmul3 y v))) (vmul3 (al * be) u))) by (clear; vec_ring).
    rewrite <- Qu. clear. vec_ring. }
  assert (H2 : vadd3 (vmul3 (y * (2 * x - al - be)) u) (vmul3 ((x - al) * (x - be) - y * y) v) = v0).
  { assert (M1 : forall s p t q, mv a (vadd3 (vmul3 s p) (vmul3 t q)) = vadd3 (vmul3 s (mv a p)) (vmul3 t (mv a q))) by (clear; intros; mat_ring). pose proof (Q v) as Qu. rewrite E2, M1, E1, E2 in Qu.
    apply (f_equal (fun w => vsub3 w (vsub3 (vmul3 (al + be) (vadd3 (vmul3 y u) (vmul3 x v))) (vmul3 (al * be) v)))) in Qu. replace v0 with (vsub3 (vsub3 (vmul3 (al + be) (vadd3 (vmul3 y u) (vmul3 x v))) (vmul3 (al * be) v)) (vsub3 (vmul3 (al + be) (vadd3 (vmul3 y u) (vmul3 x v))) (vmul3 (al * be) v))) by (clear; vec_ring).
    rewrite <- Qu. clear. vec_ring. }
  remember ((x - al) * (x - be) - y * y) as c eqn:QC. remember (y * (2 * x - al - be)) as d eqn:QD.
  assert (S : (c * c + d * d) * (dot u u + dot v v) = 0).
  { transitivity (dot (vadd3 (vmul3 c u) (vmul3 (- d) v)) (vadd3 (vmul3 c u) (vmul3 (- d) v)) + dot (vadd3 (vmul3 d u) (vmul3 c v)) (vadd3 (vmul3 d u) (vmul3 c v))); [clear; vec_ring|rewrite H1, H2; clear; vec_ring]. }
  destruct (two_roots al be x y c d _ AB QC QD S U) as (Y & X). specialize (Z Y). rewrite Z, Y in *. split; [reflexivity|]. split; [exact X|]. split; [reflexivity|]. split; [rewrite <- U; clear; vec_ring|rewrite E1; clear; vec_ring].
Qed.
Lemma quadratic4 a al be e : al <> be -> (forall v, hmv a (hmv a v) = hadd (hscale (al + be) (hmv a v)) (hscale (- (al * be)) v)) -> eigenpair4 a e ->
  ewi e = 0 /\ (ew e = al \/ ew e = be) /\ evi e = h0 /\ hdot (ev e) (ev e) = 1 /\ hmv a (ev e) = hscale (ew e) (ev e).
Proof.
  intros AB Q (U & Z & E1 & E2). destruct e as [x y u v]; cbn [ew ewi ev evi] in *.
  assert (M1 : forall s p t q, hmv a (hadd (hscale s p) (hscale t q)) = hadd (hscale s (hmv a p)) (hscale t (hmv a q))).
  { clear. intros s [p p4] t [q q4]. destruct a as [l k r w]. unfold hmv, hadd, hscale. cbn [hl ht hp hw hv h4]. f_equal; mat_ring. }
  assert (SUB : forall p q, p = q -> hadd p (hscale (- (1)) q) = h0). { intros p q ->. destruct q as [q q4]. unfold hadd, hscale, h0. cbn [hv h4]. f_equal; [vec_ring|ring]. }
  assert (H1 : hadd (hscale ((x - al) * (x - be) - y * y) u) (hscale (- (y * (2 * x - al - be))) v) = h0).
  { pose proof (Q u) as Qu. rewrite E1, M1, E1, E2 in Qu. apply SUB in Qu. rewrite <- Qu. clear. destruct u as [u u4], v as [v v4]. unfold hadd, hscale. cbn [hv h4]. f_equal; [vec_ring|ring]. }
  assert (H2 : hadd (hscale (y * (2 * x - al - be)) u) (hscale ((x - al) * (x - be) - y * y) v) = h0).
  { pose proof (Q v) as Qu. rewrite E2, M1, E1, E2 in Qu. apply SUB in Qu. rewrite <- Qu. clear. destruct u as [u u4], v as [v v4]. unfold hadd, hscale. cbn [hv h4]. f_equal; [vec_ring|ring]. }
  remember ((x - al) * (x - be) - y * y) as c eqn:QC. remember (y * (2 * x - al - be)) as d eqn:QD.
  assert (S : (c * c + d * d) * (hdot u u + hdot v v) = 0).
  { transitivity (hdot (hadd (hscale c u) (hscale (- d) v)) (hadd (hscale c u) (hscale (- d) v)) + hdot (hadd (hscale d u) (hscale c v)) (hadd (hscale d u) (hscale c v))).
    - clear. destruct u as [u u4], v as [v v4]. unfold hdot, hadd, hscale. cbn [hv h4]. vec_ring.
    - rewrite H1, H2. clear. unfold hdot, h0. cbn [hv h4]. vec_ring. }
  destruct (two_roots al be x y c d _ AB QC QD S U) as (Y & X). specialize (Z Y). rewrite Z, Y in *. split; [reflexivity|]. split; [exact X|]. split; [reflexivity|]. split.
  - rewrite <- U. clear. destruct u as [u u4]. unfold hdot, h0. cbn [hv h4]. vec_ring.
  - rewrite E1. clear. destruct u as [u u4]. unfold hadd, hscale, h0. cbn [hv h4]. f_equal; [vec_ring|ring].
Qed.
(** affine maps: the last eigenvector to an eigenvalue near 1 is a fixed point or at infinity *)
Lemma fixed_point l t q eig : eig4_ok (HM l t v0 1) eig -> vadd3 (mv l q) t = q ->
  exists p, final (near 1 tol8 eig) = Some p /\ In p eig /\ (h4 (ev p) = 0 -> dehom (ev p) = None) /\ (h4 (ev p) <> 0 -> exists x, dehom (ev p) = Some x /\ vadd3 (mv l x) t = x).
Proof.
  intros (_ & F & C) FX. destruct (C 1 (HV q 1)) as (e & I & W & _).
  { unfold h0. intros Z. injection Z. intros. lra. }
  { unfold hmv, hscale. cbn [hl ht hp hw hv h4]. f_equal; [|vec_ring]. rewrite <- FX at 2. generalize (mv l q). intros. vec_ring. }
  destruct (final_in (near 1 tol8 eig)) as (p & P & IP). { apply (in_nonempty _ e). rewrite near_in, W. split; [auto|]. replace (1 - 1) with 0 by ring. rewrite Rabs_R0. apply tol8_small. }
  exists p. split; [exact P|]. apply near_in in IP. destruct IP as (IP & NP). split; [exact IP|]. rewrite Forall_forall in F. specialize (F p IP). destruct F as (U & Z & E1 & E2). destruct p as [x y u v]; cbn [ew ewi ev evi] in *. split.
  - intros W0. unfold dehom. rewrite W0, fdiv_zero. reflexivity.
  - intros W0. assert (Q1 := f_equal h4 E1). assert (Q2 := f_equal h4 E2). unfold hmv, hadd, hscale in Q1, Q2. cbn [hl ht hp hw hv h4] in Q1, Q2. replace (dot v0 (hv u)) with 0 in Q1 by vec_ring. replace (dot v0 (hv v)) with 0 in Q2 by vec_ring.
    assert (X : x = 1 /\ y = 0).
    { assert (A1 : (x - 1) * h4 u - y * h4 v = 0) by lra. assert (A2 : (x - 1) * h4 v + y * h4 u = 0) by lra.
      assert (B : ((x - 1) * (x - 1) + y * y) * h4 u = 0).
      { replace (((x - 1) * (x - 1) + y * y) * h4 u) with ((x - 1) * ((x - 1) * h4 u - y * h4 v) + y * ((x - 1) * h4 v + y * h4 u)) by ring. rewrite A1, A2. ring. }
      apply Rmult_integral in B. destruct B as [B|B]; [|contradiction]. clear - B. apply sq_sum in B. lra. }
    destruct X as (-> & ->). specialize (Z eq_refl). subst v. assert (Q3 := f_equal hv E1). unfold hmv, hadd, hscale, h0 in Q3. cbn [hl ht hp hw hv h4] in Q3. destruct u as [u w]. cbn [hv h4] in *.
    unfold dehom. cbn [hv h4]. rewrite !fdiv_some by auto. cbn [obind]. eexists. split; [reflexivity|]. replace (V (vx u / w) (vy u / w) (vz u / w)) with (vmul3 (/ w) u) by (apply vec_eq; cbn; field; auto).
    assert (Q4 : vadd3 (mv l u) (vmul3 w t) = u) by (rewrite Q3; clear; vec_ring). transitivity (vmul3 (/ w) (vadd3 (mv l u) (vmul3 w t))); [|rewrite Q4; reflexivity].
    transitivity (vadd3 (vmul3 (/ w) (mv l u)) (vmul3 (/ w * w) t)); [|clear; generalize (mv l u); intros; vec_ring]. rewrite Rinv_l by auto. clear. mat_ring.
Qed.
Lemma unit_vector_unit n : dot n n = 1 -> unit_vector n = Some n.
Proof.
  intros D. assert (N : n <> v0) by (intros ->; unfold dot, v0 in D; cbn in D; lra). destruct (unit_vector_some n N) as (m & E & _ & _ & X). rewrite E, X. unfold norm. rewrite D, sqrt_1. f_equal. apply vec_eq; cbn; field.
Qed.
(** a unit vector parallel to a unit vector *)
Lemma unit_sign n v : dot n n = 1 -> dot v v = 1 -> v = vmul3 (dot n v) n -> exists k, k * k = 1 /\ v = vmul3 k n.
Proof. intros N D E. exists (dot n v). split; [|exact E]. rewrite E in D. rewrite dot_scale_l, dot_scale_r, N in D. lra. Qed.

(** * mirrors *)
(** the plane found is that of the matrix, unless the chosen fixed vector is at infinity *)
Theorem C76_reflection eig3 eig4 point normal m : reflection_matrix point normal = Some m -> eig3_ok (hl m) (eig3 (hl m)) -> eig4_ok m (eig4 m) ->
  (exists e, In e (eig4 m) /\ h4 (ev e) = 0 /\ reflection_from_matrix eig3 eig4 m = None) \/
  (exists p n, reflection_from_matrix eig3 eig4 m = Some (p, n) /\ dot n n = 1 /\ on_plane point normal p /\ parallel normal n /\ reflection_matrix p n = Some m).
Proof.
  intros E K3 K4. unfold reflection_matrix in E. destruct (unit_vector normal) as [n|] eqn:U; [|discriminate]. cbn [obind] in E. apply some_inj in E. destruct (unit_parallel normal n U) as (D & NN & NK & _).
  set (l := madd eye (mscale (- (2)) (outer n n))) in *. subst m. cbn [hl] in K3. set (t := vmul3 (2 * dot point n) n) in *.
  assert (ML : forall v, mv l v = vsub3 v (vmul3 (2 * dot n v) n)) by (clear; intros v; unfold l; mat_ring).
  assert (FX : vadd3 (mv l point) t = point) by (rewrite ML; unfold t; clear; vec_ring).
  destruct (fixed_point l t point _ K4 FX) as (p & P & IP & P0 & P1). destruct K3 as (_ & F & C & _).
  destruct (C (- (1)) n) as (e & I & W & _). { intros ->. unfold dot in D; cbn in D; lra. } { rewrite ML, D. clear. vec_ring. }
  destruct (first_in (near (- (1)) tol8 (eig3 l))) as (f & F1 & F2). { apply (in_nonempty _ e). rewrite near_in, W. split; [auto|]. replace (- (1) - - (1)) with 0 by ring. rewrite Rabs_R0. apply tol8_small. }
  apply near_in in F2. destruct F2 as (F2 & F3). rewrite Forall_forall in F. destruct (quadratic3 l 1 (- (1)) f) as (_ & X & _ & UF & EF); [lra| |auto|].
  { intros v. assert (Q : mv l (mv l v) = v) by (rewrite !ML, sub_dot_r, dot_scale_r, D; clear; generalize (dot n v); intros; vec_ring). rewrite Q. clear. generalize (mv l v). intros. vec_ring. }
  assert (XF : ew f = - (1)). { destruct X as [X|X]; [|exact X]. exfalso. rewrite X in F3. replace (1 - - (1)) with 2 in F3 by ring. rewrite Rabs_pos_eq in F3 by lra. pose proof tol8_small. lra. }
  rewrite XF, ML in EF. assert (V1 : ev f = vmul3 (dot n (ev f)) n). { assert (V2 : forall u k, vsub3 u (vmul3 (2 * k) n) = vmul3 (- (1)) u -> u = vmul3 k n) by (clear; intros u k H; apply vec_eq; [apply (f_equal vx) in H|apply (f_equal vy) in H|apply (f_equal vz) in H]; cbn in *; lra). apply V2. exact EF. }
  destruct (unit_sign n (ev f) D UF V1) as (k & KK & VK). unfold reflection_from_matrix. cbn [hl]. rewrite F1. cbn [obind]. rewrite P. cbn [obind]. destruct (Req_dec (h4 (ev p)) 0) as [H0|H0].
  - left. exists p. split; [exact IP|]. split; [exact H0|]. rewrite (P0 H0). reflexivity.
  - right. destruct (P1 H0) as (x & X1 & X2). rewrite X1. cbn [obind]. exists x, (ev f). split; [reflexivity|]. split; [exact UF|].
    assert (OX : dot n x = dot n point).
    { rewrite ML in X2. apply (f_equal (dot n)) in X2. rewrite dot_add_r, sub_dot_r, dot_scale_r, D in X2. unfold t in X2. rewrite dot_scale_r, D, (dot_comm point n) in X2. lra. }
    split; [rewrite (plane_unit_iff _ _ _ _ U); unfold on_plane; rewrite sub_dot_r, OX; ring|]. split; [rewrite (parallel_unit_iff _ _ _ U), VK; apply parallel_scale|].
    unfold reflection_matrix. rewrite (unit_vector_unit _ UF). cbn [obind]. rewrite VK. f_equal. f_equal.
    + unfold l. replace (outer (vmul3 k n) (vmul3 k n)) with (mscale (k * k) (outer n n)) by (clear; mat_ring). rewrite KK. clear. mat_ring.
    + unfold t. rewrite dot_scale_r, (dot_comm x n), OX, (dot_comm n point). transitivity (vmul3 (2 * dot point n * (k * k)) n); [clear; generalize (dot point n); intros; vec_ring|rewrite KK, Rmult_1_r; reflexivity].
Qed.

(** * scalings *)
Theorem C76_scale_direction eig3 eig4 factor origin direction m : scale_matrix factor (Some origin) (Some direction) = Some m -> tol8 <= Rabs (factor - 1) ->
  eig3_ok (hl m) (eig3 (hl m)) -> eig4_ok m (eig4 m) ->
  (exists e, In e (eig4 m) /\ h4 (ev e) = 0 /\ scale_from_matrix eig3 eig4 m = None) \/
  (exists o d, scale_from_matrix eig3 eig4 m = Some (factor, o, Some d) /\ dot d d = 1 /\ parallel direction d /\ on_plane origin direction o /\ scale_matrix factor (Some o) (Some d) = Some m).
Proof.
  intros E TOL K3 K4. unfold scale_matrix in E. destruct (unit_vector direction) as [n|] eqn:U; [|discriminate]. cbn [obind] in E. apply some_inj in E. destruct (unit_parallel direction n U) as (D & NN & NK & _).
  set (l := madd eye (mscale (- (1 - factor)) (outer n n))) in *. subst m. cbn [hl] in K3. set (t := vmul3 ((1 - factor) * dot origin n) n) in *.
  assert (ML : forall v, mv l v = vsub3 v (vmul3 ((1 - factor) * dot n v) n)) by (clear; intros v; unfold l; mat_ring).
  assert (FX : vadd3 (mv l origin) t = origin) by (rewrite ML; unfold t; clear; vec_ring). pose proof tol8_small as TS.
  assert (F1 : factor <> 1) by (intros Z; rewrite Z, Rminus_eq_0, Rabs_R0 in TOL; lra).
  assert (TR : trace l - 2 = factor).
  { replace (trace l) with (3 - (1 - factor) * dot n n) by (unfold l, trace; clear; mat_ring). rewrite D. ring. }
  destruct (fixed_point l t origin _ K4 FX) as (p & P & IP & P0 & P1). destruct K3 as (_ & F & C & _).
  destruct (C factor n) as (e & I & W & _). { intros ->. unfold dot in D; cbn in D; lra. } { rewrite ML, D. clear. vec_ring. }
  destruct (first_in (near factor tol8 (eig3 l))) as (f & G1 & G2). { apply (in_nonempty _ e). rewrite near_in, W. split; [auto|]. rewrite Rminus_eq_0, Rabs_R0. apply tol8_small. }
  apply near_in in G2. destruct G2 as (G2 & G3). rewrite Forall_forall in F. destruct (quadratic3 l 1 factor f) as (_ & X & _ & UF & EF); [auto| |auto|].
  { intros v. rewrite !ML, sub_dot_r, dot_scale_r, D. clear. generalize (dot n v). intros. vec_ring. }
  assert (XF : ew f = factor). { destruct X as [X|X]; [|exact X]. exfalso. rewrite X, Rabs_minus_sym in G3. lra. }
  rewrite XF, ML in EF. assert (V1 : ev f = vmul3 (dot n (ev f)) n).
  { assert (V2 : forall u k, vsub3 u (vmul3 ((1 - factor) * k) n) = vmul3 factor u -> u = vmul3 k n). { clear - F1. intros u k H. apply vec_eq; [apply (f_equal vx) in H|apply (f_equal vy) in H|apply (f_equal vz) in H]; cbn in *; apply (Rmult_eq_reg_l (1 - factor)); lra. } apply V2. exact EF. }
  destruct (unit_sign n (ev f) D UF V1) as (k & KK & VK). unfold scale_from_matrix. cbn [hl]. rewrite TR, G1, (unit_vector_unit _ UF). cbn [obind]. rewrite P. cbn [obind fst snd]. destruct (Req_dec (h4 (ev p)) 0) as [H0|H0].
  - left. exists p. split; [exact IP|]. split; [exact H0|]. rewrite (P0 H0). reflexivity.
  - right. destruct (P1 H0) as (x & X1 & X2). rewrite X1. cbn [obind]. exists x, (ev f). split; [reflexivity|]. split; [exact UF|].
    assert (OX : dot n x = dot n origin).
    { rewrite ML in X2. apply (f_equal (dot n)) in X2. rewrite dot_add_r, sub_dot_r, dot_scale_r, D in X2. unfold t in X2. rewrite dot_scale_r, D, (dot_comm origin n) in X2. apply (Rmult_eq_reg_l (1 - factor)); lra. }
    split; [rewrite (parallel_unit_iff _ _ _ U), VK; apply parallel_scale|]. split; [rewrite (plane_unit_iff _ _ _ _ U); unfold on_plane; rewrite sub_dot_r, OX; ring|].
    unfold scale_matrix. rewrite (unit_vector_unit _ UF). cbn [obind]. rewrite VK. f_equal. f_equal.
    + unfold l. replace (outer (vmul3 k n) (vmul3 k n)) with (mscale (k * k) (outer n n)) by (clear; mat_ring). rewrite KK. clear. mat_ring.
    + unfold t. rewrite dot_scale_r, (dot_comm x n), OX, (dot_comm n origin). transitivity (vmul3 ((1 - factor) * dot origin n * (k * k)) n); [clear; generalize (dot origin n); intros; vec_ring|rewrite KK, Rmult_1_r; reflexivity].
Qed.
Theorem C76_scale_uniform eig3 eig4 factor origin m : scale_matrix factor (Some origin) None = Some m -> tol8 <= Rabs (factor - 1) ->
  eig3_ok (hl m) (eig3 (hl m)) -> eig4_ok m (eig4 m) ->
  (exists e, In e (eig4 m) /\ h4 (ev e) = 0 /\ scale_from_matrix eig3 eig4 m = None) \/ scale_from_matrix eig3 eig4 m = Some (factor, origin, None).
Proof.
  intros E TOL K3 K4. unfold scale_matrix in E. apply some_inj in E. set (l := M (V factor 0 0) (V 0 factor 0) (V 0 0 factor)) in *. subst m. cbn [hl] in K3. set (t := vmul3 (1 - factor) origin) in *.
  assert (ML : forall v, mv l v = vmul3 factor v) by (clear; intros v; unfold l; mat_ring). assert (FX : vadd3 (mv l origin) t = origin) by (rewrite ML; unfold t; clear; vec_ring). pose proof tol8_small as TS.
  assert (F1 : factor <> 1) by (intros Z; rewrite Z, Rminus_eq_0, Rabs_R0 in TOL; lra). assert (TR : trace l = 3 * factor) by (unfold l, trace; cbn [row0 row1 row2 vx vy vz]; ring).
  destruct (fixed_point l t origin _ K4 FX) as (p & P & IP & P0 & P1). destruct K3 as (_ & F & _ & _). rewrite Forall_forall in F.
  assert (N : near (trace l - 2) tol8 (eig3 l) = []).
  { destruct (near (trace l - 2) tol8 (eig3 l)) as [|f r] eqn:Q; [reflexivity|]. exfalso. assert (I : In f (near (trace l - 2) tol8 (eig3 l))) by (rewrite Q; left; auto). apply near_in in I. destruct I as (I & J). specialize (F f I).
    destruct (quadratic3 l factor 1 f) as (_ & X & _ & UF & EF); [auto| |auto|]. { intros v. rewrite !ML. clear. vec_ring. }
    rewrite ML in EF. assert (XF : ew f = factor). { assert (Q1 : dot (ev f) (vmul3 factor (ev f)) = dot (ev f) (vmul3 (ew f) (ev f))) by (rewrite EF; reflexivity). rewrite !dot_scale_r, UF in Q1. lra. }
    rewrite XF, TR in J. replace (factor - (3 * factor - 2)) with (- 2 * (factor - 1)) in J by ring. rewrite Rabs_mult, (Rabs_left (- 2)) in J by lra. lra. }
  unfold scale_from_matrix. cbn [hl]. rewrite N. cbn [first obind]. rewrite P. cbn [obind fst snd]. destruct (Req_dec (h4 (ev p)) 0) as [H0|H0].
  - left. exists p. split; [exact IP|]. split; [exact H0|]. rewrite (P0 H0). reflexivity.
  - right. destruct (P1 H0) as (x & X1 & X2). rewrite X1. cbn [obind]. rewrite TR. replace ((3 * factor - 2 + 2) / 3) with factor by field. f_equal. f_equal. f_equal.
    rewrite ML in X2. unfold t in X2. clear - X2 F1. apply vec_eq; [apply (f_equal vx) in X2|apply (f_equal vy) in X2|apply (f_equal vz) in X2]; cbn in X2; apply (Rmult_eq_reg_l (1 - factor)); lra.
Qed.

(** * rotations *)
Lemma rodrigues_mv a n v : dot n n = 1 -> mv (rodrigues a n) v = vadd3 (vadd3 (vmul3 (cos a) v) (vmul3 ((1 - cos a) * dot n v) n)) (vmul3 (sin a) (cross n v)).
Proof. intros _. unfold rodrigues. generalize (cos a) (sin a). intros c s. mat_ring. Qed.
Lemma rodrigues_T a n : mT (rodrigues a n) = rodrigues (- a) n.
Proof. unfold rodrigues. rewrite cos_neg, sin_neg. generalize (cos a) (sin a). intros c s. mat_ring. Qed.
Lemma rotation_sign a b k n : k * k = 1 -> cos b = cos a -> sin b = k * sin a -> rodrigues b (vmul3 k n) = rodrigues a n.
Proof.
  intros K C S. unfold rodrigues. rewrite C, S. destruct n as [x y z]. cbn [vmul3 vx vy vz]. set (c := cos a). set (s := sin a).
  assert (P : forall u w, k * u * (k * w) = u * w) by (intros; transitivity (k * k * (u * w)); [ring|rewrite K; ring]). rewrite !P.
  assert (Q : forall w, k * s * (k * w) = s * w) by (intros; apply P). rewrite ?Q. reflexivity.
Qed.
(** angle, axis and a point of it are found, up to the sign of both angle and axis, if the rotation is not small *)
Theorem C76_rotation eig3 eig4 angle direction point m : rotation_about angle direction (Some point) = Some m -> tol8 <= 1 - cos angle ->
  eig3_ok (mT (hl m)) (eig3 (mT (hl m))) -> eig4_ok m (eig4 m) ->
  (exists e, In e (eig4 m) /\ h4 (ev e) = 0 /\ rotation_from_matrix eig3 eig4 m = None) \/
  (exists a d p, rotation_from_matrix eig3 eig4 m = Some (a, d, p) /\ - PI < a <= PI /\ dot d d = 1 /\ parallel direction d /\ parallel direction (vsub3 p point) /\ rotation_about a d (Some p) = Some m).
Proof.
  intros E TOL K3 K4. unfold rotation_about in E. destruct (unit_vector direction) as [n|] eqn:U; [|unfold rotation_matrix in E; rewrite U in E; discriminate].
  destruct (unit_parallel direction n U) as (D & NN & NK & _). rewrite (rotation_matrix_rodrigues _ _ _ U) in E. cbn [obind] in E. apply some_inj in E. set (l := rodrigues angle n) in *. subst m. cbn [hl] in K3. set (t := vsub3 point (mv l point)) in *.
  pose proof tol8_small as TS. assert (FX : vadd3 (mv l point) t = point) by (unfold t; clear; generalize (mv l point); intros; vec_ring).
  destruct (fixed_point l t point _ K4 FX) as (p & P & IP & P0 & P1). destruct K3 as (_ & F & C & _). rewrite Forall_forall in F.
  assert (TL : forall v, mv (mT l) v = vadd3 (vadd3 (vmul3 (cos angle) v) (vmul3 ((1 - cos angle) * dot n v) n)) (vmul3 (- sin angle) (cross n v))).
  { intros v. unfold l. rewrite rodrigues_T, rodrigues_mv, cos_neg, sin_neg by auto. reflexivity. }
  destruct (C 1 n) as (e & I & W & _). { intros ->. unfold dot in D; cbn in D; lra. } { rewrite TL, D. clear. generalize (cos angle) (sin angle). intros. vec_ring. }
  destruct (final_in (near 1 tol8 (eig3 (mT l)))) as (f & G1 & G2). { apply (in_nonempty _ e). rewrite near_in, W. split; [auto|]. rewrite Rminus_eq_0, Rabs_R0. lra. }
  apply near_in in G2. destruct G2 as (G2 & G3). specialize (F f G2). destruct F as (UF & ZF & E1 & E2).
  assert (X : dot (ev f) (ev f) = 1 /\ ev f = vmul3 (dot n (ev f)) n).
  { destruct f as [x y u v]; cbn [ew ewi ev evi] in *. set (c := cos angle) in *. set (s := - sin angle) in *. rewrite TL in E1, E2.
    assert (A1 : dot n u = x * dot n u - y * dot n v). { apply (f_equal (dot n)) in E1. rewrite sub_dot_r, !dot_add_r, !dot_scale_r, D in E1. replace (dot n (cross n u)) with 0 in E1 by (clear; vec_ring). lra. }
    assert (A2 : dot n v = y * dot n u + x * dot n v). { apply (f_equal (dot n)) in E2. rewrite !dot_add_r, !dot_scale_r, D in E2. replace (dot n (cross n v)) with 0 in E2 by (clear; vec_ring). lra. }
    set (nu := dot n u) in *. set (nv := dot n v) in *.
    assert (A3 : ((x - 1) * (x - 1) + y * y) * nu = 0) by (replace (((x - 1) * (x - 1) + y * y) * nu) with ((x - 1) * ((x - 1) * nu - y * nv) + y * ((x - 1) * nv + y * nu)) by ring; replace ((x - 1) * nu - y * nv) with 0 by lra; replace ((x - 1) * nv + y * nu) with 0 by lra; ring).
    assert (A4 : ((x - 1) * (x - 1) + y * y) * nv = 0) by (replace (((x - 1) * (x - 1) + y * y) * nv) with ((x - 1) * ((x - 1) * nv + y * nu) - y * ((x - 1) * nu - y * nv)) by ring; replace ((x - 1) * nu - y * nv) with 0 by lra; replace ((x - 1) * nv + y * nu) with 0 by lra; ring).
    assert (X1 : x = 1 /\ y = 0).
    { destruct (Req_dec ((x - 1) * (x - 1) + y * y) 0) as [Z|Z]; [apply sq_sum in Z; lra|]. exfalso. apply Rmult_integral in A3, A4. assert (N1 : nu = 0) by tauto. assert (N2 : nv = 0) by tauto.
      assert (B1 : dot u (vadd3 (vadd3 (vmul3 c u) (vmul3 ((1 - c) * nu) n)) (vmul3 s (cross n u))) = x * dot u u - y * dot u v) by (rewrite E1, sub_dot_r, !dot_scale_r; reflexivity).
      assert (B2 : dot v (vadd3 (vadd3 (vmul3 c v) (vmul3 ((1 - c) * nv) n)) (vmul3 s (cross n v))) = y * dot u v + x * dot v v) by (rewrite E2, dot_add_r, !dot_scale_r, (dot_comm v u); reflexivity).
      rewrite !dot_add_r, !dot_scale_r, N1 in B1. rewrite !dot_add_r, !dot_scale_r, N2 in B2. replace (dot u (cross n u)) with 0 in B1 by (clear; vec_ring). replace (dot v (cross n v)) with 0 in B2 by (clear; vec_ring).
      assert (B3 : c * (dot u u + dot v v) = x * (dot u u + dot v v)) by lra. rewrite UF in B3. assert (XC : x = c) by lra. rewrite XC, Rabs_minus_sym, Rabs_pos_eq in G3 by lra. lra. }
    destruct X1 as (-> & ->). specialize (ZF eq_refl). subst v. assert (UU : dot u u = 1) by (rewrite <- UF; clear; vec_ring). split; [exact UU|].
    assert (E3 : vadd3 (vmul3 (1 - c) (vsub3 u (vmul3 nu n))) (vmul3 (- s) (cross n u)) = v0).
    { assert (Y : forall a b, a = vsub3 (vmul3 1 u) (vmul3 0 b) -> vsub3 u a = v0) by (clear; intros a b ->; vec_ring). rewrite <- (Y _ _ E1). clear. generalize (cross n u). intros. vec_ring. }
    assert (P1' : dot (vsub3 u (vmul3 nu n)) (vsub3 u (vmul3 nu n)) = 0).
    { apply (f_equal (dot (vsub3 u (vmul3 nu n)))) in E3. rewrite dot_add_r, !dot_scale_r in E3. replace (dot (vsub3 u (vmul3 nu n)) (cross n u)) with 0 in E3 by (clear; clearbody nu; vec_ring). replace (dot (vsub3 u (vmul3 nu n)) v0) with 0 in E3 by (clear; clearbody nu; vec_ring).
      apply (Rmult_eq_reg_l (1 - c)); lra. }
    apply dot_zero in P1'. clear - P1'. clearbody nu. apply vec_eq; [apply (f_equal vx) in P1'|apply (f_equal vy) in P1'|apply (f_equal vz) in P1']; cbn in *; lra. }
  destruct X as (UU & V1). destruct (unit_sign n (ev f) D UU V1) as (k & KK & VK).
  assert (TR : (trace l - 1) / 2 = cos angle).
  { replace (trace l) with (3 * cos angle + (1 - cos angle) * dot n n) by (unfold l, trace, rodrigues; clear; generalize (cos angle) (sin angle); intros; mat_ring). rewrite D. field. }
  assert (SN : (if Rlt_dec tol8 (Rabs (vz (ev f))) then fdiv (mget l 1 0 + (cos angle - 1) * vx (ev f) * vy (ev f)) (vz (ev f))
              else if Rlt_dec tol8 (Rabs (vy (ev f))) then fdiv (mget l 0 2 + (cos angle - 1) * vx (ev f) * vz (ev f)) (vy (ev f))
              else fdiv (mget l 2 1 + (cos angle - 1) * vy (ev f) * vz (ev f)) (vx (ev f))) = Some (k * sin angle)).
  { assert (G : forall u w, k * u * (k * w) = u * w) by (intros; transitivity (k * k * (u * w)); [ring|rewrite KK; ring]). destruct n as [nx ny nz]. rewrite VK in *. cbn [vmul3 vx vy vz] in *. unfold l, rodrigues. cbn [mget row0 row1 row2 vx vy vz]. cbn.
    set (c := cos angle). set (s := sin angle).
    destruct (Rlt_dec tol8 (Rabs (k * nz))) as [H|H].
    { assert (NZ : k * nz <> 0) by (intros Z; rewrite Z, Rabs_R0 in H; lra). rewrite fdiv_some by auto. f_equal. apply (Rmult_eq_reg_r (k * nz)); [|auto]. unfold Rdiv. rewrite Rmult_assoc, Rinv_l, Rmult_1_r by auto.
      replace ((c - 1) * (k * nx) * (k * ny)) with ((c - 1) * (k * nx * (k * ny))) by ring. rewrite G. replace (k * s * (k * nz)) with (s * nz) by (rewrite G; reflexivity). ring. }
    destruct (Rlt_dec tol8 (Rabs (k * ny))) as [H1|H1].
    { assert (NZ : k * ny <> 0) by (intros Z; rewrite Z, Rabs_R0 in H1; lra). rewrite fdiv_some by auto. f_equal. apply (Rmult_eq_reg_r (k * ny)); [|auto]. unfold Rdiv. rewrite Rmult_assoc, Rinv_l, Rmult_1_r by auto.
      replace ((c - 1) * (k * nx) * (k * nz)) with ((c - 1) * (k * nx * (k * nz))) by ring. rewrite G. replace (k * s * (k * ny)) with (s * ny) by (rewrite G; reflexivity). ring. }
    { assert (NZ : k * nx <> 0).
      { intros Z. unfold dot in UU. cbn in UU. rewrite Z in UU. apply Rnot_lt_le in H, H1. assert (T1 : tol8 <= 1 / 2) by (unfold tol8; lra).
        assert (S1 : k * ny * (k * ny) <= 1 / 4) by (rewrite <- (Rabs_pos_eq (k * ny * (k * ny))) by apply Rle_0_sqr; rewrite Rabs_mult; pose proof (Rabs_pos (k * ny)); nra).
        assert (S2 : k * nz * (k * nz) <= 1 / 4) by (rewrite <- (Rabs_pos_eq (k * nz * (k * nz))) by apply Rle_0_sqr; rewrite Rabs_mult; pose proof (Rabs_pos (k * nz)); nra). lra. }
      rewrite fdiv_some by auto. f_equal. apply (Rmult_eq_reg_r (k * nx)); [|auto]. unfold Rdiv. rewrite Rmult_assoc, Rinv_l, Rmult_1_r by auto.
      replace ((c - 1) * (k * ny) * (k * nz)) with ((c - 1) * (k * ny * (k * nz))) by ring. rewrite G. replace (k * s * (k * nx)) with (s * nx) by (rewrite G; reflexivity). ring. } }
  unfold rotation_from_matrix. cbn [hl]. rewrite G1. cbn [obind]. rewrite P. cbn [obind]. destruct (Req_dec (h4 (ev p)) 0) as [H0|H0].
  - left. exists p. split; [exact IP|]. split; [exact H0|]. rewrite (P0 H0). reflexivity.
  - right. destruct (P1 H0) as (q & X1 & X2). rewrite X1. cbn [obind]. rewrite TR, SN. cbn [obind]. exists (atan2 (k * sin angle) (cos angle)), (ev f), q. split; [reflexivity|]. split; [apply atan2_range|]. split; [exact UU|].
    split; [rewrite (parallel_unit_iff _ _ _ U), VK; apply parallel_scale|]. split.
    { rewrite (parallel_unit_iff _ _ _ U). set (w := vsub3 q point). assert (W1 : mv l w = w) by (unfold w; transitivity (vsub3 (vadd3 (mv l q) t) (vadd3 (mv l point) t)); [clear; generalize t; intros; mat_ring|rewrite X2, FX; reflexivity]).
      unfold l in W1. rewrite rodrigues_mv in W1 by auto. set (c := cos angle) in *. set (s := sin angle) in *. clearbody w.
      assert (E3 : vadd3 (vmul3 (1 - c) (vsub3 w (vmul3 (dot n w) n))) (vmul3 (- s) (cross n w)) = v0). { assert (Y : forall a, a = w -> vsub3 w a = v0) by (clear; intros a ->; vec_ring). rewrite <- (Y _ W1). clear. generalize (cross n w) (dot n w). intros. vec_ring. }
      assert (CC : dot (cross n w) (cross n w) = 0).
      { apply (f_equal (dot (vsub3 w (vmul3 (dot n w) n)))) in E3. rewrite dot_add_r, !dot_scale_r in E3. replace (dot (vsub3 w (vmul3 (dot n w) n)) (cross n w)) with 0 in E3 by (clear; generalize (dot n w); intros; vec_ring). replace (dot (vsub3 w (vmul3 (dot n w) n)) v0) with 0 in E3 by (clear; generalize (dot n w); intros; vec_ring).
        assert (Z : dot (vsub3 w (vmul3 (dot n w) n)) (vsub3 w (vmul3 (dot n w) n)) = 0) by (apply (Rmult_eq_reg_l (1 - c)); lra). rewrite !sub_dot_l, !sub_dot_r, !dot_scale_l, !dot_scale_r, D, (dot_comm w n) in Z.
        transitivity (dot n n * dot w w - dot n w * dot n w); [clear; vec_ring|rewrite D; lra]. }
      apply dot_zero in CC. exact CC. }
    unfold rotation_about. rewrite (rotation_matrix_rodrigues _ _ _ (unit_vector_unit _ UU)). cbn [obind].
    assert (RE : rodrigues (atan2 (k * sin angle) (cos angle)) (ev f) = l).
    { rewrite VK. assert (Q1 : cos angle * cos angle + k * sin angle * (k * sin angle) = 1) by (replace (k * sin angle * (k * sin angle)) with (k * k * (sin angle * sin angle)) by ring; rewrite KK; pose proof (sc1 angle); lra).
      destruct (atan2_cs (k * sin angle) (cos angle)) as (C1 & S1); [lra|]. rewrite Q1, sqrt_1 in C1, S1. apply rotation_sign; [exact KK|rewrite C1; field|rewrite S1; field]. }
    rewrite RE. f_equal. f_equal. rewrite <- X2 at 1. clear. generalize (mv l q). intros. vec_ring.
Qed.
