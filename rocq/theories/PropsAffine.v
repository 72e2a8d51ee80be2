(** Property C71: the homogeneous matrices built by transformations.py are the geometric maps they are named after. *)
From Coq Require Import Reals List Lra Lia Psatz.
From Verif Require Import Base Vec RotModel RotProofs PlacementModel PupilModel AffineModel.
Import ListNotations.
Open Scope R_scope.

(** ** Specification *)
(** the matrix takes the point [P] to the point [Q]; no image if the fourth coordinate vanishes *)
Definition image (m : hmat) (P Q : vec) : Prop := exists s, s <> 0 /\ hmv m (HV P 1) = HV (vmul3 s Q) s.
Definition on_plane (point normal X : vec) : Prop := dot normal (vsub3 X point) = 0.
Definition parallel (a b : vec) : Prop := cross a b = v0.
Definition middle (P Q : vec) : vec := vmul3 (1 / 2) (vadd3 P Q).

(** ** vectors *)
Ltac mat_ring := repeat match goal with v : vec |- _ => destruct v | m : mat |- _ => destruct m end;
  cbv [mm mv vm mT col0 col1 col2 det dot cross vadd3 vsub3 vmul3 vneg eye ex ey ez v0 madd mscale outer vx vy vz row0 row1 row2];
  repeat (apply mat_eq || apply vec_eq); cbn [vx vy vz row0 row1 row2]; ring.
Ltac vec_field := repeat match goal with v : vec |- _ => destruct v end; vec_simpl; repeat (apply mat_eq || apply vec_eq); cbn [vx vy vz row0 row1 row2]; field; auto.
Lemma sub_dot_r a b c : dot c (vsub3 a b) = dot c a - dot c b. Proof. vec_ring. Qed.
Lemma sub_dot_l a b c : dot (vsub3 a b) c = dot a c - dot b c. Proof. vec_ring. Qed.
(** along a unit vector [n] and across it *)
Lemma split_along n v : dot n n = 1 -> v = vadd3 (vmul3 (dot n v) n) (cross (cross n v) n).
Proof.
  intros H. transitivity (vadd3 (vmul3 (dot n v) n) (vsub3 (vmul3 (dot n n) v) (vmul3 (dot n v) n))).
  - rewrite H. vec_ring.
  - vec_ring.
Qed.
Lemma parallel_unit n v : dot n n = 1 -> parallel n v -> v = vmul3 (dot n v) n.
Proof. intros H P. rewrite (split_along n v H) at 1. unfold parallel in P. rewrite P. vec_ring. Qed.
Lemma parallel_scale n k : parallel n (vmul3 k n). Proof. unfold parallel. vec_ring. Qed.
Lemma unit_parallel v n : unit_vector v = Some n -> dot n n = 1 /\ v = vmul3 (norm v) n /\ norm v <> 0 /\ v <> v0.
Proof.
  intros E. assert (N : v <> v0) by (intros ->; rewrite (proj2 (unit_vector_none v0) eq_refl) in E; discriminate).
  destruct (unit_vector_some v N) as (n' & U & D & X & _). rewrite U in E. injection E as <-. split; [exact D|]. split; [exact X|]. split; [rewrite norm_zero; exact N|exact N].
Qed.
Lemma parallel_unit_iff v n w : unit_vector v = Some n -> parallel v w <-> parallel n w.
Proof.
  intros U. destruct (unit_parallel v n U) as (D & E & N & _). unfold parallel. set (k := norm v) in *. clearbody k. rewrite E. split; intros H.
  - replace (cross n w) with (vmul3 (/ k) (cross (vmul3 k n) w)) by (vec_field). rewrite H. vec_ring.
  - replace (cross (vmul3 k n) w) with (vmul3 k (cross n w)) by vec_ring. rewrite H. vec_ring.
Qed.
Lemma plane_unit_iff v n p X : unit_vector v = Some n -> on_plane p v X <-> on_plane p n X.
Proof.
  intros U. destruct (unit_parallel v n U) as (D & E & N & _). unfold on_plane. set (k := norm v) in *. clearbody k. rewrite E, dot_scale_l. split; intros H.
  - apply (Rmult_eq_reg_l k); [lra|auto].
  - rewrite H. ring.
Qed.
(** affine matrices: the bottom row is 0 0 0 1 *)
Lemma image_affine l t P Q : image (HM l t v0 1) P Q <-> Q = vadd3 (mv l P) t.
Proof.
  unfold image, hmv. cbn [hl ht hp hw hv h4]. replace (dot v0 P + 1 * 1) with 1 by (vec_ring). split.
  - intros (s & S & E). injection E as E0 E1 E2 E3. subst s. apply vec_eq; vec_simpl; lra.
  - intros ->. exists 1. split; [lra|]. f_equal. vec_ring.
Qed.

(** ** C71: translations *)
Theorem C71_translation d P Q : (image (translation_matrix d) P Q <-> Q = vadd3 P d) /\ translation_from_matrix (translation_matrix d) = d /\
  (image identity_matrix P Q <-> Q = P).
Proof.
  unfold translation_matrix, identity_matrix. rewrite !image_affine. split; [|split; [reflexivity|]].
  - replace (mv eye P) with P by vec_ring. reflexivity.
  - replace (vadd3 (mv eye P) v0) with P by vec_ring. reflexivity.
Qed.
(** ** C71: reflections: the plane halves the way, which is along the normal *)
Theorem C71_reflection point normal : (normal = v0 -> reflection_matrix point normal = None) /\
  (normal <> v0 -> exists m, reflection_matrix point normal = Some m /\
     forall P Q, image m P Q <-> on_plane point normal (middle P Q) /\ parallel normal (vsub3 Q P)).
Proof.
  split; [intros ->; unfold reflection_matrix; rewrite (proj2 (unit_vector_none v0) eq_refl); reflexivity|].
  intros N. destruct (unit_vector_some normal N) as (n & U & D & _). unfold reflection_matrix. rewrite U. cbn [obind]. eexists. split; [reflexivity|].
  intros P Q. rewrite image_affine, (plane_unit_iff _ _ _ _ U), (parallel_unit_iff _ _ _ U). unfold on_plane.
  assert (E : vadd3 (mv (madd eye (mscale (- (2)) (outer n n))) P) (vmul3 (2 * dot point n) n) = vadd3 P (vmul3 (- (2) * dot n (vsub3 P point)) n)).
  { mat_ring. }
  rewrite E. split.
  - intros ->. split.
    + replace (dot n (vsub3 (middle P (vadd3 P (vmul3 (- (2) * dot n (vsub3 P point)) n))) point)) with (dot n (vsub3 P point) * (1 - dot n n)); [rewrite D; ring|].
      unfold middle. destruct n, P, point. vec_simpl. field.
    + replace (vsub3 (vadd3 P (vmul3 (- (2) * dot n (vsub3 P point)) n)) P) with (vmul3 (- (2) * dot n (vsub3 P point)) n) by vec_ring. apply parallel_scale.
  - intros (A & B). pose proof (parallel_unit n _ D B) as E1.
    assert (K : dot n (vsub3 Q P) = - (2) * dot n (vsub3 P point)).
    { unfold middle in A. transitivity (2 * (dot n (vsub3 (vmul3 (1 / 2) (vadd3 P Q)) point)) - 2 * dot n (vsub3 P point)); [|rewrite A; ring]. destruct n, P, Q, point. vec_simpl. field. }
    rewrite <- K, <- E1. vec_ring.
Qed.
(** ** C71: rotations about any point: the point stays, everything turns around it *)
Theorem C71_rotation angle direction point : (direction = v0 -> rotation_about angle direction point = None) /\
  (direction <> v0 -> exists m r, rotation_about angle direction point = Some m /\ rotation_matrix angle direction = Some r /\
     forall P Q, image m P Q <-> vsub3 Q (match point with Some p => p | None => v0 end) = mv r (vsub3 P (match point with Some p => p | None => v0 end))).
Proof.
  unfold rotation_about. split.
  - intros ->. unfold rotation_matrix. rewrite (proj2 (unit_vector_none v0) eq_refl). reflexivity.
  - intros N. destruct (unit_vector_some direction N) as (n & U & D & _). rewrite (rotation_matrix_rodrigues angle direction n U). cbn [obind]. eexists _, _. split; [reflexivity|]. split; [reflexivity|].
    intros P Q. set (r := rodrigues angle n). clearbody r. destruct point as [p|]; rewrite image_affine.
    + split; [intros ->; vec_ring|]. intros H. replace Q with (vadd3 (vsub3 Q p) p) by vec_ring. rewrite H. vec_ring.
    + split; [intros ->; vec_ring|]. intros H. replace Q with (vsub3 Q v0) by vec_ring. rewrite H. vec_ring.
Qed.
(** ** C71: scaling about an origin, in all directions or along one *)
Theorem C71_scale factor origin direction : let o := match origin with Some o => o | None => v0 end in
  match direction with
  | None => exists m, scale_matrix factor origin None = Some m /\ forall P Q, image m P Q <-> vsub3 Q o = vmul3 factor (vsub3 P o)
  | Some d => (d = v0 -> scale_matrix factor origin (Some d) = None) /\
      (d <> v0 -> exists m, scale_matrix factor origin (Some d) = Some m /\
         forall P Q, image m P Q <-> parallel d (vsub3 Q P) /\ dot d (vsub3 Q o) = factor * dot d (vsub3 P o))
  end.
Proof.
  cbv zeta. destruct direction as [d|].
  - unfold scale_matrix. split; [intros ->; rewrite (proj2 (unit_vector_none v0) eq_refl); reflexivity|].
    intros N. destruct (unit_vector_some d N) as (n & U & D & _). rewrite U. cbn [obind]. set (o := match origin with Some o => o | None => v0 end).
    exists (HM (madd eye (mscale (- (1 - factor)) (outer n n))) (vmul3 ((1 - factor) * dot o n) n) v0 1). split.
    { unfold o. destruct origin as [p|]; [reflexivity|]. f_equal. f_equal. vec_ring. }
    intros P Q. rewrite image_affine, (parallel_unit_iff _ _ _ U). destruct (unit_parallel d n U) as (_ & E & K & _). set (k := norm d) in *. clearbody k. rewrite E. rewrite !dot_scale_l. clearbody o.
    assert (E1 : vadd3 (mv (madd eye (mscale (- (1 - factor)) (outer n n))) P) (vmul3 ((1 - factor) * dot o n) n) = vadd3 P (vmul3 ((factor - 1) * dot n (vsub3 P o)) n)).
    { mat_ring. }
    rewrite E1. split.
    + intros ->. split.
      * replace (vsub3 (vadd3 P (vmul3 ((factor - 1) * dot n (vsub3 P o)) n)) P) with (vmul3 ((factor - 1) * dot n (vsub3 P o)) n) by vec_ring. apply parallel_scale.
      * replace (dot n (vsub3 (vadd3 P (vmul3 ((factor - 1) * dot n (vsub3 P o)) n)) o)) with (dot n (vsub3 P o) + (factor - 1) * dot n (vsub3 P o) * dot n n) by vec_ring. rewrite D. ring.
    + intros (A & B). pose proof (parallel_unit n _ D A) as E2.
      assert (F : dot n (vsub3 Q P) = (factor - 1) * dot n (vsub3 P o)).
      { assert (B' : dot n (vsub3 Q o) = factor * dot n (vsub3 P o)) by (apply (Rmult_eq_reg_l k); [lra|auto]). transitivity (dot n (vsub3 Q o) - dot n (vsub3 P o)); [vec_ring|]. rewrite B'. ring. }
      rewrite <- F, <- E2. vec_ring.
  - unfold scale_matrix. eexists. split; [reflexivity|]. intros P Q. destruct origin as [p|]; rewrite image_affine.
    + split; [intros ->; vec_ring|]. intros H. replace Q with (vadd3 (vsub3 Q p) p) by vec_ring. rewrite H. vec_ring.
    + split; [intros ->; vec_ring|]. intros H. replace Q with (vsub3 Q v0) by vec_ring. rewrite H. vec_ring.
Qed.

(** ** C71: projections onto the plane, along the normal, along a direction or towards a point *)
Theorem C71_parallel point normal direction : let d := match direction with Some d => d | None => normal end in
  (normal = v0 \/ dot d normal = 0 -> projection_matrix point normal direction None false = None) /\
  (normal <> v0 -> dot d normal <> 0 -> exists m, projection_matrix point normal direction None false = Some m /\
     forall P Q, image m P Q <-> on_plane point normal Q /\ parallel d (vsub3 Q P)).
Proof.
  cbv zeta. unfold projection_matrix. split.
  - intros H. destruct (unit_vector normal) as [n|] eqn:U; [|reflexivity]. destruct (unit_parallel normal n U) as (D & E & K & N). cbn [obind]. destruct H as [H|H]; [contradiction|].
    destruct direction as [d|].
    + destruct (Req_EM_T (dot d n) 0) as [|NZ]; [reflexivity|]. exfalso. rewrite E, dot_scale_r in H. apply Rmult_integral in H. tauto.
    + exfalso. apply N. apply dot_zero. exact H.
  - intros N NZ. destruct (unit_vector_some normal N) as (n & U & D & E & _). rewrite U. cbn [obind]. destruct (unit_parallel normal n U) as (_ & _ & K & _).
    set (k := norm normal) in *. assert (E' := E). clearbody k.
    destruct direction as [d|].
    + assert (DN : dot d n <> 0) by (intros Z; apply NZ; rewrite E, dot_scale_r, Z; ring).
      destruct (Req_EM_T (dot d n) 0) as [|_]; [contradiction|]. eexists. split; [reflexivity|]. intros P Q. rewrite image_affine, (plane_unit_iff _ _ _ _ U). unfold on_plane.
      assert (E1 : vadd3 (mv (madd eye (mscale (- (1) / dot d n) (outer d n))) P) (vmul3 (dot point n / dot d n) d) = vsub3 P (vmul3 (dot n (vsub3 P point) / dot d n) d)).
      { set (q := dot d n) in *. clearbody q. unfold madd, mscale, outer. vec_field. }
      rewrite E1. split.
      * intros ->. split.
        -- replace (dot n (vsub3 (vsub3 P (vmul3 (dot n (vsub3 P point) / dot d n) d)) point)) with (dot n (vsub3 P point) - dot n (vsub3 P point) / dot d n * dot d n) by vec_ring. field. exact DN.
        -- replace (vsub3 (vsub3 P (vmul3 (dot n (vsub3 P point) / dot d n) d)) P) with (vmul3 (- (dot n (vsub3 P point) / dot d n)) d) by vec_ring. apply parallel_scale.
      * intros (A & B). unfold parallel in B.
        assert (F : vmul3 (dot d n) (vsub3 Q P) = vmul3 (dot n (vsub3 Q P)) d).
        { transitivity (vadd3 (vmul3 (dot n (vsub3 Q P)) d) (vmul3 (-1) (cross n (cross d (vsub3 Q P))))); [vec_ring|]. rewrite B. vec_ring. }
        assert (G : dot n (vsub3 Q P) = - dot n (vsub3 P point)) by (transitivity (dot n (vsub3 Q point) - dot n (vsub3 P point)); [vec_ring|]; rewrite A; ring).
        rewrite G in F. assert (X : vsub3 Q P = vmul3 (- dot n (vsub3 P point) / dot d n) d).
        { transitivity (vmul3 (/ dot d n) (vmul3 (dot d n) (vsub3 Q P))).
          - set (q := dot d n) in *. clearbody q. clear - DN. vec_field.
          - rewrite F. set (q := dot d n) in *. set (z := dot n (vsub3 P point)). clearbody q z. clear - DN. vec_field. }
        replace Q with (vadd3 P (vsub3 Q P)) by vec_ring. rewrite X. set (q := dot d n) in *. set (z := dot n (vsub3 P point)). clearbody q z. clear - DN. vec_field.
    + eexists. split; [reflexivity|]. intros P Q. rewrite image_affine, (plane_unit_iff _ _ _ _ U), (parallel_unit_iff _ _ _ U). unfold on_plane.
      assert (E1 : vadd3 (mv (madd eye (mscale (- (1)) (outer n n))) P) (vmul3 (dot point n) n) = vsub3 P (vmul3 (dot n (vsub3 P point)) n)) by (mat_ring).
      rewrite E1. split.
      * intros ->. split.
        -- replace (dot n (vsub3 (vsub3 P (vmul3 (dot n (vsub3 P point)) n)) point)) with (dot n (vsub3 P point) * (1 - dot n n)) by vec_ring. rewrite D. ring.
        -- replace (vsub3 (vsub3 P (vmul3 (dot n (vsub3 P point)) n)) P) with (vmul3 (- dot n (vsub3 P point)) n) by vec_ring. apply parallel_scale.
      * intros (A & B). pose proof (parallel_unit n _ D B) as F.
        assert (G : dot n (vsub3 Q P) = - dot n (vsub3 P point)) by (transitivity (dot n (vsub3 Q point) - dot n (vsub3 P point)); [vec_ring|]; rewrite A; ring).
        rewrite G in F. replace Q with (vadd3 P (vsub3 Q P)) by vec_ring. rewrite F. vec_ring.
Qed.
(** seen from [eye]: the image lies in the plane and on the line of sight; no image beside the eye *)
Lemma image_quot m P Q s V1 : hmv m (HV P 1) = HV V1 s -> (image m P Q <-> s <> 0 /\ V1 = vmul3 s Q).
Proof.
  intros E. unfold image. rewrite E. split.
  - intros (s' & N & X). injection X as E0 E1. subst s'. auto.
  - intros (N & ->). exists s. auto.
Qed.
Theorem C71_perspective point normal direction viewer : (normal = v0 -> projection_matrix point normal direction (Some viewer) false = None) /\
  (normal <> v0 -> exists m, projection_matrix point normal direction (Some viewer) false = Some m /\
     forall P Q, image m P Q <-> dot normal (vsub3 viewer P) <> 0 /\ on_plane point normal Q /\ parallel (vsub3 P viewer) (vsub3 Q viewer)).
Proof.
  unfold projection_matrix. split; [intros ->; rewrite (proj2 (unit_vector_none v0) eq_refl); reflexivity|].
  intros N. destruct (unit_vector_some normal N) as (n & U & D & E & _). rewrite U. cbn [obind]. destruct (unit_parallel normal n U) as (_ & _ & K & _). set (k := norm normal) in *. eexists. split; [reflexivity|].
  intros P Q. rewrite (plane_unit_iff _ _ _ _ U). rewrite (image_quot _ P Q (dot n (vsub3 viewer P)) (vadd3 (vmul3 (dot n (vsub3 viewer point)) (vsub3 P viewer)) (vmul3 (dot n (vsub3 viewer P)) viewer))).
  2: { unfold hmv, madd, mscale, outer. cbn [hl ht hp hw hv h4]. f_equal; mat_ring. }
  assert (Z : dot normal (vsub3 viewer P) <> 0 <-> dot n (vsub3 viewer P) <> 0).
  { clearbody k. rewrite E, dot_scale_l. split; intros H C; apply H; [rewrite C; ring|]. apply Rmult_integral in C. tauto. }
  rewrite Z. clear Z. unfold on_plane, parallel. split.
  - intros (S & X). split; [exact S|]. split.
    + apply (Rmult_eq_reg_l (dot n (vsub3 viewer P))); [|exact S].
      transitivity (dot n (vmul3 (dot n (vsub3 viewer P)) Q) - dot n (vsub3 viewer P) * dot n point); [rewrite dot_scale_r, (sub_dot_r Q point); ring|]. rewrite <- X. vec_ring.
    + assert (F : vmul3 (dot n (vsub3 viewer P)) (vsub3 Q viewer) = vmul3 (dot n (vsub3 viewer point)) (vsub3 P viewer)).
      { transitivity (vsub3 (vmul3 (dot n (vsub3 viewer P)) Q) (vmul3 (dot n (vsub3 viewer P)) viewer)); [vec_ring|]. rewrite <- X. vec_ring. }
      set (s := dot n (vsub3 viewer P)) in *. clearbody s. transitivity (vmul3 (/ s) (cross (vsub3 P viewer) (vmul3 s (vsub3 Q viewer)))); [|rewrite F; vec_ring].
      clear - S. vec_field.
  - intros (S & A & B). split; [exact S|].
    assert (F : vmul3 (dot n (vsub3 P viewer)) (vsub3 Q viewer) = vmul3 (dot n (vsub3 Q viewer)) (vsub3 P viewer)).
    { transitivity (vadd3 (vmul3 (dot n (vsub3 Q viewer)) (vsub3 P viewer)) (vmul3 (-1) (cross n (cross (vsub3 P viewer) (vsub3 Q viewer))))); [vec_ring|]. rewrite B. vec_ring. }
    assert (G : dot n (vsub3 Q viewer) = - dot n (vsub3 viewer point)) by (transitivity (dot n (vsub3 Q point) - dot n (vsub3 viewer point)); [vec_ring|]; rewrite A; ring).
    rewrite G in F. transitivity (vsub3 (vmul3 (dot n (vsub3 viewer P)) viewer) (vmul3 (- dot n (vsub3 viewer point)) (vsub3 P viewer))); [vec_ring|]. rewrite <- F. vec_ring.
Qed.
Lemma flat_product n p s c : madd (mm (madd eye (mscale (- (1)) (outer n n))) (madd (madd (M (V s 0 0) (V 0 s 0) (V 0 0 s)) (mscale (- (1)) (outer p n))) (mscale (- (1)) (outer n n)))) (outer (vmul3 c n) (vneg n)) =
  madd (madd (M (V s 0 0) (V 0 s 0) (V 0 0 s)) (mscale (- (1)) (outer p n))) (mscale (dot n p + dot n n - 1 - s - c) (outer n n)).
Proof. mat_ring. Qed.
(** the pseudo perspective keeps the depth: dropping it orthogonally gives the perspective, and of two points in
    front of the viewer the farther one stays farther *)
Theorem C71_pseudo point normal direction viewer : normal <> v0 ->
  exists o m ps, projection_matrix point normal None None false = Some o /\
    projection_matrix point normal direction (Some viewer) false = Some m /\
    projection_matrix point normal direction (Some viewer) true = Some ps /\ hmm o ps = m /\
    (forall P Q, image ps P Q -> dot normal (vsub3 Q point) * dot normal (vsub3 viewer P) = norm normal * dot normal (vsub3 point P)) /\
    (forall P Q P' Q', image ps P Q -> image ps P' Q' -> 0 < dot normal (vsub3 viewer point) ->
       0 < dot normal (vsub3 viewer P) -> 0 < dot normal (vsub3 viewer P') ->
       (dot normal (vsub3 viewer P) < dot normal (vsub3 viewer P') <-> dot normal Q < dot normal Q')).
Proof.
  intros N. unfold projection_matrix. destruct (unit_vector_some normal N) as (n & U & D & E & _). rewrite U. cbn [obind]. destruct (unit_parallel normal n U) as (_ & _ & K & _).
  assert (K0 : 0 < norm normal) by (pose proof (norm_nonneg normal); lra). set (k := norm normal) in *.
  eexists _, _, _. split; [reflexivity|]. split; [reflexivity|]. split; [reflexivity|].
  match goal with |- _ /\ (forall P Q, image ?m P Q -> _) /\ _ => set (ps := m) end.
  assert (F : forall P Q, image ps P Q -> dot n (vsub3 Q point) * dot n (vsub3 viewer P) = dot n (vsub3 point P) /\ dot n (vsub3 viewer P) <> 0).
  { intros P Q H. rewrite (image_quot _ P Q (dot n (vsub3 viewer P)) (vadd3 (vadd3 (vmul3 (dot n (vsub3 viewer point)) (vsub3 P viewer)) (vmul3 (dot n (vsub3 viewer P)) viewer)) (vmul3 (dot n (vsub3 point P)) n))) in H.
    2: { unfold ps, hmv, madd, mscale, outer. cbn [hl ht hp hw hv h4]. f_equal; mat_ring. }
    destruct H as (S & X). split; [|exact S]. transitivity (dot n (vmul3 (dot n (vsub3 viewer P)) Q) - dot n (vsub3 viewer P) * dot n point); [rewrite dot_scale_r, (sub_dot_r Q point); ring|]. rewrite <- X.
    replace (dot n (vadd3 (vadd3 (vmul3 (dot n (vsub3 viewer point)) (vsub3 P viewer)) (vmul3 (dot n (vsub3 viewer P)) viewer)) (vmul3 (dot n (vsub3 point P)) n)))
      with (dot n (vsub3 viewer point) * dot n (vsub3 P viewer) + dot n (vsub3 viewer P) * dot n viewer + dot n (vsub3 point P) * dot n n) by vec_ring.
    rewrite D. vec_ring. }
  split; [|split].
  - unfold hmm, ps. cbn [hl ht hp hw]. clear - D.
    f_equal.
    + rewrite sub_dot_l. generalize (dot point n) as c. intros c. transitivity (madd (madd (M (V (dot viewer n - c) 0 0) (V 0 (dot viewer n - c) 0) (V 0 0 (dot viewer n - c))) (mscale (- (1)) (outer viewer n))) (mscale (dot n n - 1) (outer n n))).
      * rewrite flat_product. f_equal. f_equal. rewrite (dot_comm n viewer). ring.
      * rewrite D. clear D. mat_ring.
    + transitivity (vadd3 (vmul3 (dot point n) viewer) (vmul3 (dot point n * (1 - dot n n)) n)); [mat_ring|]. rewrite D. vec_ring.
    + vec_ring.
    + vec_ring.
  - intros P Q H. destruct (F P Q H) as (X & _). clearbody k. rewrite E, !dot_scale_l. rewrite <- X. ring.
  - intros P Q P' Q' H H' D0 D1 D2. destruct (F P Q H) as (X & _). destruct (F P' Q' H') as (X' & _). clearbody k. rewrite E in *. rewrite !dot_scale_l in *. rewrite !sub_dot_r in *.
    set (a := dot n P) in *. set (a' := dot n P') in *. set (b := dot n viewer) in *. set (c := dot n point) in *. set (q := dot n Q) in *. set (q' := dot n Q') in *. clearbody a a' b c q q'.
    assert (B0 : 0 < b - c) by nra. assert (B1 : 0 < b - a) by nra. assert (B2 : 0 < b - a') by nra.
    assert (Y : (q' - q) * ((b - a) * (b - a')) = (b - c) * ((b - a') - (b - a))) by nra.
    assert (P0 : 0 < (b - a) * (b - a')) by (apply Rmult_lt_0_compat; assumption). clear X X' D0 D1 D2 F. split; intros L.
    + apply Rmult_lt_compat_l; [exact K0|]. assert (0 < (b - c) * (b - a' - (b - a))) by (apply Rmult_lt_0_compat; nra). nra.
    + apply Rmult_lt_compat_l; [exact K0|]. assert (q < q') by nra. assert (0 < (q' - q) * ((b - a) * (b - a'))) by (apply Rmult_lt_0_compat; lra). nra.
Qed.

(** ** C71: clipping: the cube from -1 to 1 is the image of the box, or of the part of the pyramid between near and far *)
Definition in_cube (Q : vec) : Prop := -1 <= vx Q <= 1 /\ -1 <= vy Q <= 1 /\ -1 <= vz Q <= 1.
Lemma quot_range a b x : a < b -> (-1 <= 2 / (b - a) * x + (b + a) / (a - b) <= 1 <-> a <= x <= b).
Proof.
  intros H. assert (E : 2 / (b - a) * x + (b + a) / (a - b) = -1 + (x - a) * (2 / (b - a))) by (field; lra). rewrite E.
  assert (P : 0 < 2 / (b - a)) by (apply Rdiv_lt_0_compat; lra). assert (W : (b - a) * (2 / (b - a)) = 2) by (field; lra). split; intros (A & B); nra.
Qed.
Theorem C71_clip_box left right bottom top near far : (~ (left < right /\ bottom < top /\ near < far) -> clip_matrix left right bottom top near far false = None) /\
  (left < right -> bottom < top -> near < far -> exists m, clip_matrix left right bottom top near far false = Some m /\
     image m (V left bottom near) (V (-1) (-1) (-1)) /\ image m (V right top far) (V 1 1 1) /\
     forall P, exists Q, image m P Q /\ (in_cube Q <-> left <= vx P <= right /\ bottom <= vy P <= top /\ near <= vz P <= far)).
Proof.
  unfold clip_matrix. destruct (Rle_dec right left) as [H1|H1]; [split; [reflexivity|intros; lra]|]. destruct (Rle_dec top bottom) as [H2|H2]; [split; [reflexivity|intros; lra]|].
  destruct (Rle_dec far near) as [H3|H3]; [split; [reflexivity|intros; lra]|]. split; [intros H; exfalso; apply H; lra|]. intros L1 L2 L3. eexists. split; [reflexivity|].
  assert (N1 : right - left <> 0) by lra. assert (N2 : left - right <> 0) by lra. assert (N3 : top - bottom <> 0) by lra. assert (N4 : bottom - top <> 0) by lra. assert (N5 : far - near <> 0) by lra. assert (N6 : near - far <> 0) by lra.
  split; [|split].
  - rewrite image_affine. vec_simpl. apply vec_eq; cbn [vx vy vz]; field; auto.
  - rewrite image_affine. vec_simpl. apply vec_eq; cbn [vx vy vz]; field; auto.
  - intros [x y z]. exists (V (2 / (right - left) * x + (right + left) / (left - right)) (2 / (top - bottom) * y + (top + bottom) / (bottom - top)) (2 / (far - near) * z + (far + near) / (near - far))).
    split; [rewrite image_affine; vec_ring|]. unfold in_cube. cbn [vx vy vz]. rewrite (quot_range left right x L1), (quot_range bottom top y L2), (quot_range near far z L3). reflexivity.
Qed.
Theorem C71_clip_frustum left right bottom top near far :
  (~ (left < right /\ bottom < top /\ near < far /\ / 2 ^ 50 < near) -> clip_matrix left right bottom top near far true = None) /\
  (left < right -> bottom < top -> near < far -> / 2 ^ 50 < near -> exists m, clip_matrix left right bottom top near far true = Some m /\
     image m (V left bottom near) (V (-1) (-1) (-1)) /\ image m (vmul3 (far / near) (V right top near)) (V 1 1 1) /\
     forall P, (vz P = 0 -> forall Q, ~ image m P Q) /\
       (vz P <> 0 -> exists Q, image m P Q /\ (in_cube Q <-> near <= vz P <= far /\ left * (vz P / near) <= vx P <= right * (vz P / near) /\ bottom * (vz P / near) <= vy P <= top * (vz P / near)))).
Proof.
  assert (EP : EPS = / 2 ^ 50) by (unfold EPS; f_equal; ring). unfold clip_matrix. destruct (Rle_dec right left) as [H1|H1]; [split; [reflexivity|intros; lra]|]. destruct (Rle_dec top bottom) as [H2|H2]; [split; [reflexivity|intros; lra]|].
  destruct (Rle_dec far near) as [H3|H3]; [split; [reflexivity|intros; lra]|]. rewrite <- EP. destruct (Rle_dec near EPS) as [H4|H4]; [split; [reflexivity|intros; lra]|].
  split; [intros H; exfalso; apply H; lra|]. intros L1 L2 L3 L4. eexists. split; [reflexivity|]. assert (N0 : 0 < near) by (unfold EPS in L4; lra).
  assert (N1 : right - left <> 0) by lra. assert (N2 : left - right <> 0) by lra. assert (N3 : top - bottom <> 0) by lra. assert (N4 : bottom - top <> 0) by lra. assert (N5 : far - near <> 0) by lra. assert (N6 : near - far <> 0) by lra. assert (N7 : near <> 0) by lra. assert (N8 : far <> 0) by lra.
  split; [|split].
  - exists (- near). split; [lra|]. unfold hmv. cbn [hl ht hp hw hv h4]. f_equal; [|vec_simpl; ring]. vec_simpl. apply vec_eq; cbn [vx vy vz]; field; auto.
  - exists (- far). split; [lra|]. unfold hmv. cbn [hl ht hp hw hv h4]. f_equal; [|vec_simpl; field; auto]. vec_simpl. apply vec_eq; cbn [vx vy vz]; field; auto.
  - intros [x y z]. cbn [vx vy vz]. split.
    + intros -> Q (s & S & E). unfold hmv in E. cbn [hl ht hp hw hv h4] in E. injection E as _ _ _ E. apply S. rewrite <- E. vec_simpl. ring.
    + intros Z. set (X := x * near / z). set (Y := y * near / z).
      exists (V (2 / (right - left) * X + (right + left) / (left - right)) (2 / (top - bottom) * Y + (top + bottom) / (bottom - top)) (((far + near) - 2 * near * far / z) / (far - near))).
      split.
      * exists (- z). split; [lra|]. unfold hmv. cbn [hl ht hp hw hv h4]. f_equal; [|vec_simpl; ring]. unfold X, Y. vec_simpl. apply vec_eq; cbn [vx vy vz]; field; auto.
      * unfold in_cube. cbn [vx vy vz]. rewrite (quot_range left right X L1), (quot_range bottom top Y L2).
        assert (D : -1 <= (far + near - 2 * near * far / z) / (far - near) <= 1 <-> near <= z <= far).
        { set (w := far * near / z). assert (W : w * z = far * near) by (unfold w; field; auto).
          replace ((far + near - 2 * near * far / z) / (far - near)) with (1 - (w - near) * (2 / (far - near))) by (unfold w; field; auto).
          assert (PP : 0 < 2 / (far - near)) by (apply Rdiv_lt_0_compat; lra). assert (WW : (far - near) * (2 / (far - near)) = 2) by (field; lra).
          assert (FN : 0 < far * near) by (apply Rmult_lt_0_compat; lra). clearbody w. split.
          - intros (A & B). assert (w - near <= far - near) by nra. assert (0 <= w - near) by nra. assert (0 < z) by nra. split; nra.
          - intros (A & B). assert (0 < w) by nra. assert (near <= w) by nra. assert (w <= far) by nra. split; nra. }
        rewrite D. assert (T : 0 < z -> forall lo u, (lo <= u * near / z <-> lo * (z / near) <= u) /\ (u * near / z <= lo <-> u <= lo * (z / near))).
        { intros Z0 lo u. assert (0 < z / near) by (apply Rdiv_lt_0_compat; lra). assert (E : u = u * near / z * (z / near)) by (field; auto). set (g := u * near / z) in *. set (h := z / near) in *. clearbody g h. rewrite E. split; split; intros; nra. }
        split.
        -- intros (A & B & C). assert (Z0 : 0 < z) by lra. unfold X, Y in *. pose proof (T Z0 left x) as T1. pose proof (T Z0 right x) as T2. pose proof (T Z0 bottom y) as T3. pose proof (T Z0 top y) as T4. tauto.
        -- intros (C & A & B). assert (Z0 : 0 < z) by lra. unfold X, Y in *. pose proof (T Z0 left x) as T1. pose proof (T Z0 right x) as T2. pose proof (T Z0 bottom y) as T3. pose proof (T Z0 top y) as T4. tauto.
Qed.

(** ** C71: shears: along the direction by the distance from the plane times the tangent; raised when the
       direction leaves the plane *)
Theorem C71_shear angle direction point normal : direction <> v0 -> normal <> v0 ->
  let skew := Rabs (dot normal direction) / (norm normal * norm direction) in
  (/ 10 ^ 6 < skew \/ cos angle = 0 -> shear_matrix angle direction point normal = None) /\
  (skew <= / 10 ^ 6 -> cos angle <> 0 -> exists m, shear_matrix angle direction point normal = Some m /\
     det (hl m) = 1 + tan angle * (dot normal direction / (norm normal * norm direction)) /\
     forall P Q, image m P Q <-> vmul3 (norm direction) (vsub3 Q P) = vmul3 (tan angle * (dot normal (vsub3 P point) / norm normal)) direction).
Proof.
  intros ND NN. cbv zeta. unfold shear_matrix, ftan, fdiv.
  destruct (unit_vector_some normal NN) as (n & U & D & E & _). destruct (unit_vector_some direction ND) as (d & U' & D' & E' & _). rewrite U, U'. cbn [obind].
  destruct (unit_parallel normal n U) as (_ & _ & K & _). destruct (unit_parallel direction d U') as (_ & _ & K' & _).
  assert (K0 : 0 < norm normal) by (pose proof (norm_nonneg normal); lra). assert (K0' : 0 < norm direction) by (pose proof (norm_nonneg direction); lra).
  set (k := norm normal) in *. set (k' := norm direction) in *. clearbody k k'.
  assert (Q : dot n d = dot normal direction / (k * k')) by (rewrite E, E', dot_scale_l, dot_scale_r; field; split; auto).
  assert (A : Rabs (dot n d) = Rabs (dot normal direction) / (k * k')).
  { rewrite Q. unfold Rdiv. rewrite Rabs_mult. f_equal. apply Rabs_right. apply Rle_ge, Rlt_le, Rinv_0_lt_compat, Rmult_lt_0_compat; assumption. }
  rewrite <- A, <- Q. replace (/ 10 ^ 6) with (1 / 1000000) by (simpl; field).
  destruct (Rlt_dec (1 / 1000000) (Rabs (dot n d))) as [H|H]; [split; [reflexivity|intros; lra]|]. destruct (Req_EM_T (cos angle) 0) as [C|C]; [split; [reflexivity|intros; contradiction]|].
  split; [intros [?|?]; [lra|contradiction]|]. intros _ _. cbn [obind]. fold (tan angle). set (t := tan angle). clearbody t. eexists. split; [reflexivity|]. split.
  - cbn [hl]. mat_ring.
  - intros P X. rewrite image_affine. rewrite E, E', dot_scale_l.
    assert (L : vadd3 (mv (madd eye (mscale t (outer d n))) P) (vmul3 (- t * dot point n) d) = vadd3 P (vmul3 (t * dot n (vsub3 P point)) d)) by (mat_ring).
    rewrite L. replace (k * dot n (vsub3 P point) / k) with (dot n (vsub3 P point)) by (field; exact K). set (g := t * dot n (vsub3 P point)). clearbody g. split.
    + intros ->. vec_ring.
    + intros H1. replace X with (vadd3 P (vmul3 (/ k') (vmul3 k' (vsub3 X P)))) by (clear - K'; vec_field). rewrite H1. clear - K'. vec_field.
Qed.

(** ** C71: crystal axes: the columns of the orthogonalization have the lengths and angles of the cell *)
Theorem C71_cell lengths angles : let '(V a b c) := lengths in
  let al := vx angles * PI / 180 in let be := vy angles * PI / 180 in let ga := vz angles * PI / 180 in
  (sin al * sin be = 0 \/ Rabs (sin al * sin be) < Rabs (cos al * cos be - cos ga) -> orthogonalization_matrix lengths angles = None) /\
  (sin al * sin be <> 0 -> Rabs (cos al * cos be - cos ga) <= Rabs (sin al * sin be) ->
   exists m, orthogonalization_matrix lengths angles = Some m /\ ht m = v0 /\ hp m = v0 /\ hw m = 1 /\
     let A := col0 (hl m) in let B := col1 (hl m) in let C := col2 (hl m) in
     dot A A = a * a /\ dot B B = b * b /\ C = V 0 0 c /\ vx B = 0 /\ vy B = b * sin al /\
     dot B C = b * c * cos al /\ dot A C = a * c * cos be /\ dot A B = a * b * cos ga /\
     det (hl m) * det (hl m) = a * a * (b * b) * (c * c) * (1 - cos al * cos al - cos be * cos be - cos ga * cos ga + 2 * cos al * cos be * cos ga) /\
     (0 <= a * sin be -> 0 <= vx A)).
Proof.
  destruct lengths as [a b c]. cbv zeta. unfold orthogonalization_matrix, radians. set (al := vx angles * PI / 180). set (be := vy angles * PI / 180). set (ga := vz angles * PI / 180).
  pose proof (sin2_cos2 al) as S1. pose proof (sin2_cos2 be) as S2. unfold Rsqr in S1, S2. set (sa := sin al) in *. set (ca := cos al) in *. set (sb := sin be) in *. set (cb := cos be) in *. set (cg := cos ga). clearbody sa ca sb cb cg.
  unfold fdiv, fsqrt. destruct (Req_EM_T (sa * sb) 0) as [Z|Z]; [split; [reflexivity|intros; contradiction]|]. cbn [obind].
  assert (NA : sa <> 0) by (intros H; apply Z; rewrite H; ring). assert (NB : sb <> 0) by (intros H; apply Z; rewrite H; ring).
  set (co := (ca * cb - cg) / (sa * sb)). assert (CO : co * (sa * sb) = ca * cb - cg) by (unfold co; field; auto). clearbody co.
  assert (AB : Rabs (ca * cb - cg) = Rabs co * Rabs (sa * sb)) by (rewrite <- CO; apply Rabs_mult). assert (P : 0 < Rabs (sa * sb)) by (apply Rabs_pos_lt; exact Z).
  assert (CC : co * co = Rabs co * Rabs co) by (unfold Rabs; destruct (Rcase_abs co); ring). pose proof (Rabs_pos co) as P0.
  destruct (Rle_dec 0 (1 - co * co)) as [H|H]; cbn [obind]; [|apply Rnot_le_lt in H]. 2: {
    split; [reflexivity|]. intros _ L. exfalso. rewrite AB in L. assert (Rabs co <= 1) by (apply (Rmult_le_reg_r (Rabs (sa * sb))); lra). nra. }
    split.
    + intros [?|L]; [contradiction|]. exfalso. rewrite AB in L. assert (1 < Rabs co) by (apply (Rmult_lt_reg_r (Rabs (sa * sb))); lra). nra.
    + intros _ _. eexists. split; [reflexivity|]. cbn [hl ht hp hw]. assert (R2 : sqrt (1 - co * co) * sqrt (1 - co * co) = 1 - co * co) by (apply sqrt_def; lra). pose proof (sqrt_pos (1 - co * co)) as R0. set (r := sqrt (1 - co * co)) in *. clearbody r.
      split; [reflexivity|]. split; [reflexivity|]. split; [reflexivity|]. vec_simpl.
      assert (SA : sa * sa = 1 - ca * ca) by lra. assert (SB : sb * sb = 1 - cb * cb) by lra.
      split; [transitivity (a * a * (sb * sb * (r * r) + sb * sb * (co * co) + cb * cb)); [ring|rewrite R2, SB; ring]|].
      split; [transitivity (b * b * (sa * sa + ca * ca)); [ring|rewrite SA; ring]|]. split; [reflexivity|]. split; [reflexivity|]. split; [reflexivity|].
      split; [ring|]. split; [ring|].
      split; [transitivity (a * b * (ca * cb - co * (sa * sb))); [ring|rewrite CO; ring]|]. split.
      * transitivity (a * a * (b * b) * (c * c) * ((sa * sb) * (sa * sb) * (r * r))); [ring|]. rewrite R2.
        replace (sa * sb * (sa * sb) * (1 - co * co)) with ((sa * sa) * (sb * sb) - (co * (sa * sb)) * (co * (sa * sb))) by ring. rewrite CO, SA, SB. ring.
      * intros L. apply Rmult_le_pos; assumption.
Qed.

(** ** C71: composition, norms and angles *)
Theorem C71_concatenate ms p : hmv (concatenate_matrices ms) p = fold_right hmv p ms.
Proof.
  unfold concatenate_matrices. assert (L : forall a, hmv (fold_left hmm ms a) p = hmv a (fold_right hmv p ms)).
  { induction ms as [|m ms IH]; intros a; [reflexivity|]. cbn [fold_left fold_right]. rewrite IH. generalize (fold_right hmv p ms). intros [v s].
    destruct a as [l t q w], m as [l' t' q' w']. unfold hmm, hmv, madd, outer. cbn [hl ht hp hw hv h4]. f_equal; mat_ring. }
  rewrite L. generalize (fold_right hmv p ms). intros [v s]. unfold hmv, identity_matrix. cbn [hl ht hp hw hv h4]. f_equal; mat_ring.
Qed.
Theorem C71_vector_norm l : 0 <= vector_norm l /\ (vector_norm l = 0 <-> Forall (eq 0) l) /\ (forall k, vector_norm (map (Rmult k) l) = Rabs k * vector_norm l) /\
  (forall x y z, vector_norm [x; y; z] = norm (V x y z)) /\ (forall l', vector_norm (l ++ l') * vector_norm (l ++ l') = vector_norm l * vector_norm l + vector_norm l' * vector_norm l').
Proof.
  assert (NN : forall l, 0 <= sum_sq l) by (intros l0; induction l0 as [|x l0 IH]; cbn [sum_sq fold_right]; [lra|fold (sum_sq l0); nra]).
  split; [apply sqrt_pos|]. split; [|split; [|split]].
  - unfold vector_norm. split.
    + intros H. assert (Z : sum_sq l = 0) by (apply sqrt_eq_0; [apply NN|exact H]). clear H. induction l as [|x l IH]; [constructor|]. cbn [sum_sq fold_right] in Z. fold (sum_sq l) in Z. pose proof (NN l). constructor; [|apply IH]; nra.
    + intros H. rewrite <- sqrt_0. f_equal. induction H as [|x l X _ IH]; [reflexivity|]. cbn [sum_sq fold_right]. fold (sum_sq l). rewrite <- X, IH. ring.
  - intros k. unfold vector_norm. replace (sum_sq (map (Rmult k) l)) with (Rsqr k * sum_sq l).
    + rewrite sqrt_mult; [|apply Rle_0_sqr|apply NN]. rewrite sqrt_Rsqr_abs. reflexivity.
    + induction l as [|x l IH]; cbn [sum_sq fold_right map]; [ring|]. fold (sum_sq l). fold (sum_sq (map (Rmult k) l)). rewrite <- IH. unfold Rsqr. ring.
  - intros x y z. unfold vector_norm, norm, sum_sq. cbn [fold_right]. f_equal. vec_simpl. ring.
  - intros l'. unfold vector_norm. rewrite !sqrt_def by apply NN. induction l as [|x l IH]; [change (sum_sq l' = 0 + sum_sq l'); ring|]. change (x * x + sum_sq (l ++ l') = x * x + sum_sq l + sum_sq l'). rewrite IH. ring.
Qed.
Theorem C71_angle a b : (a = v0 \/ b = v0 -> forall directed, angle_between_vectors a b directed = None) /\
  (a <> v0 -> b <> v0 ->
   (exists t, angle_between_vectors a b true = Some t /\ 0 <= t <= PI /\ dot a b = norm a * norm b * cos t /\ norm (vector_product a b) = norm a * norm b * sin t) /\
   (exists t, angle_between_vectors a b false = Some t /\ 0 <= t <= PI / 2 /\ Rabs (dot a b) = norm a * norm b * cos t)) /\
  dot a (vector_product a b) = 0 /\ dot b (vector_product a b) = 0 /\ det (M a b (vector_product a b)) = norm (vector_product a b) * norm (vector_product a b).
Proof.
  split; [|split; [|rewrite norm_sqr; unfold vector_product; split; [vec_ring|split; vec_ring]]].
  - intros H directed. unfold angle_between_vectors, fdiv. destruct (Req_EM_T (norm a * norm b) 0) as [|Z]; [reflexivity|]. exfalso. apply Z. destruct H as [->| ->]; rewrite (proj2 (norm_zero v0) eq_refl); ring.
  - intros NA NB. assert (A0 : 0 < norm a) by (pose proof (norm_nonneg a); assert (norm a <> 0) by (rewrite norm_zero; exact NA); lra). assert (B0 : 0 < norm b) by (pose proof (norm_nonneg b); assert (norm b <> 0) by (rewrite norm_zero; exact NB); lra).
    unfold angle_between_vectors, fdiv. destruct (Req_EM_T (norm a * norm b) 0) as [Z|Z]; [exfalso; nra|]. cbn [obind].
    assert (L : dot a b * dot a b + dot (cross a b) (cross a b) = (norm a * norm a) * (norm b * norm b)) by (rewrite !norm_sqr; vec_ring).
    assert (C0 : 0 <= dot (cross a b) (cross a b)) by (rewrite <- norm_sqr; pose proof (norm_nonneg (cross a b)); nra).
    set (d := dot a b / (norm a * norm b)). assert (DD : dot a b = norm a * norm b * d) by (unfold d; field; split; lra).
    assert (PP : 0 < norm a * norm b) by nra. assert (D1 : d * d <= 1).
    { apply (Rmult_le_reg_l ((norm a * norm b) * (norm a * norm b))); [nra|]. rewrite DD in L. nra. }
    assert (D2 : -1 <= d <= 1) by nra. clearbody d. split.
    + unfold facos. destruct (Rle_dec (- (1)) d) as [_|C]; [|lra]. destruct (Rle_dec d 1) as [_|C]; [|lra]. exists (acos d). split; [reflexivity|]. split; [apply acos_bound|]. rewrite cos_acos by lra. split; [exact DD|].
      assert (S : 0 <= sin (acos d)) by (apply sin_ge_0; apply acos_bound). unfold vector_product. apply (Rsqr_inj (norm (cross a b))); [apply norm_nonneg|nra|].
      unfold Rsqr. rewrite norm_sqr. pose proof (sin2_cos2 (acos d)) as T. unfold Rsqr in T. rewrite cos_acos in T by lra.
      transitivity ((norm a * norm b) * (norm a * norm b) * (sin (acos d) * sin (acos d))); [|ring]. replace (sin (acos d) * sin (acos d)) with (1 - d * d) by lra. rewrite DD in L. nra.
    + assert (R : 0 <= Rabs d <= 1) by (split; [apply Rabs_pos|apply Rabs_le; lra]). unfold facos. destruct (Rle_dec (- (1)) (Rabs d)) as [_|C]; [|lra]. destruct (Rle_dec (Rabs d) 1) as [_|C]; [|lra].
      exists (acos (Rabs d)). split; [reflexivity|]. rewrite cos_acos by lra. split.
      * split; [apply acos_bound|]. destruct (Rle_dec (acos (Rabs d)) (PI / 2)) as [|G]; [assumption|]. exfalso. pose proof (acos_bound (Rabs d)). pose proof (cos_lt_0 (acos (Rabs d))) as Q. rewrite cos_acos in Q by lra. pose proof PI_RGT_0. lra.
      * rewrite DD, Rabs_mult, (Rabs_right (norm a * norm b)) by lra. reflexivity.
Qed.

(** ** C71: comparing transformations: multiples of a matrix are the same transformation, unless the corner vanishes; the converse is false *)
Lemma isclose_self x : isclose x x = true.
Proof. unfold isclose. destruct (Rle_dec _ _) as [|C]; [reflexivity|]. exfalso. apply C. rewrite Rminus_diag_eq by reflexivity. rewrite Rabs_R0. pose proof (Rabs_pos x). unfold tol. lra. Qed.
Lemma allclose_self v : allclose v v = true.
Proof. unfold allclose. rewrite !isclose_self. reflexivity. Qed.
Theorem C71_same m k : (hw m <> 0 -> k <> 0 -> is_same_transform m (HM (mscale k (hl m)) (vmul3 k (ht m)) (vmul3 k (hp m)) (k * hw m)) = true) /\
  (hw m = 0 -> forall b, is_same_transform m b = false /\ is_same_transform b m = false).
Proof.
  split.
  - intros W K. unfold is_same_transform, hdiv. cbn [hl ht hp hw]. destruct (Req_EM_T (hw m) 0) as [|_]; [contradiction|]. destruct (Req_EM_T (k * hw m) 0) as [C|_]; [apply Rmult_integral in C; tauto|].
    destruct m as [l t p w]. cbn [hl ht hp hw] in *.
    replace (mscale (/ (k * w)) (mscale k l)) with (mscale (/ w) l) by (destruct l as [[? ? ?] [? ? ?] [? ? ?]]; unfold mscale; vec_field).
    replace (vmul3 (/ (k * w)) (vmul3 k t)) with (vmul3 (/ w) t) by vec_field. replace (vmul3 (/ (k * w)) (vmul3 k p)) with (vmul3 (/ w) p) by vec_field. replace (k * w / (k * w)) with (w / w) by (field; auto).
    rewrite !allclose_self, isclose_self. reflexivity.
  - intros W b. unfold is_same_transform, hdiv. destruct (Req_EM_T (hw m) 0) as [_|C]; [|contradiction]. split; [reflexivity|]. destruct (Req_EM_T (hw b) 0); reflexivity.
Qed.
Theorem C71_same_refuted : is_same_transform identity_matrix (translation_matrix (V (/ 10 ^ 9) 0 0)) = true /\
  image (translation_matrix (V (/ 10 ^ 9) 0 0)) v0 (V (/ 10 ^ 9) 0 0) /\ ~ image identity_matrix v0 (V (/ 10 ^ 9) 0 0).
Proof.
  split; [|split].
  - unfold is_same_transform, hdiv, identity_matrix, translation_matrix. cbn [hl ht hp hw]. destruct (Req_EM_T 1 0) as [C|_]; [lra|]. rewrite !allclose_self, isclose_self. rewrite !Bool.andb_true_r. cbn [andb].
    cbn [ht]. unfold allclose. vec_simpl. rewrite !isclose_self. rewrite !Bool.andb_true_r. unfold isclose. destruct (Rle_dec _ _) as [|C]; [reflexivity|]. exfalso. apply C. replace (/ 1 * 0 - / 1 * / 10 ^ 9) with (- / 1000000000) by (simpl; field). rewrite (Rabs_left (- / 1000000000)) by lra. unfold tol. clear C. match goal with |- context [Rabs ?x] => pose proof (Rabs_pos x); generalize dependent (Rabs x) end. intros. lra.
  - unfold translation_matrix. rewrite image_affine. vec_ring.
  - unfold identity_matrix. rewrite image_affine. intros E. apply (f_equal vx) in E. vec_simpl. simpl in E. lra.
Qed.
(** a perspective clipping matrix is not even the same as itself *)
Theorem C71_same_clip_refuted left right bottom top near far m : clip_matrix left right bottom top near far true = Some m -> is_same_transform m m = false.
Proof.
  intros H. apply (proj2 (C71_same m 1)). unfold clip_matrix in H. destruct (Rle_dec right left); [discriminate|]. destruct (Rle_dec top bottom); [discriminate|]. destruct (Rle_dec far near); [discriminate|]. destruct (Rle_dec near EPS); [discriminate|]. injection H as <-. reflexivity.
Qed.

(** ** Examples *)
Example C71_mirror : exists m, reflection_matrix (V 0 0 1) (V 0 0 2) = Some m /\ image m (V 1 2 3) (V 1 2 (-1)) /\ ~ image m (V 1 2 3) (V 1 2 3).
Proof.
  destruct (proj2 (C71_reflection (V 0 0 1) (V 0 0 2))) as (m & E & I); [intros H; apply (f_equal vz) in H; vec_simpl; lra|]. exists m. split; [exact E|]. rewrite !I. unfold on_plane, parallel, middle. vec_simpl. split.
  - split; [field|apply vec_eq; cbn [vx vy vz]; ring].
  - intros (A & _). lra.
Qed.
Example C71_turn : exists m, rotation_about (PI / 2) (V 0 0 1) (Some (V 1 0 0)) = Some m /\ image m (V 2 0 5) (V 1 1 5).
Proof.
  destruct (proj2 (C71_rotation (PI / 2) (V 0 0 1) (Some (V 1 0 0)))) as (m & r & E & Er & I); [intros H; apply (f_equal vz) in H; vec_simpl; lra|]. exists m. split; [exact E|]. apply I.
  assert (N : V 0 0 1 <> v0) by (intros H; apply (f_equal vz) in H; vec_simpl; lra).
  destruct (unit_vector_some (V 0 0 1) N) as (n & U & D & X & _). rewrite (rotation_matrix_rodrigues _ _ n U) in Er. injection Er as <-.
  assert (n = V 0 0 1) as ->. { rewrite (norm_unit (V 0 0 1)) in X by (vec_simpl; ring). rewrite X. vec_ring. }
  unfold rodrigues. rewrite ?sin_PI2, ?cos_PI2. vec_simpl. apply vec_eq; cbn [vx vy vz]; ring.
Qed.
Example C71_stretch : exists m, scale_matrix 3 (Some (V 1 1 1)) (Some (V 0 2 0)) = Some m /\ image m (V 5 2 5) (V 5 4 5).
Proof.
  destruct (proj2 (C71_scale 3 (Some (V 1 1 1)) (Some (V 0 2 0)))) as (m & E & I); [intros H; apply (f_equal vy) in H; vec_simpl; lra|]. exists m. split; [exact E|]. apply I. unfold parallel. vec_simpl. split; [apply vec_eq; cbn [vx vy vz]; ring|ring].
Qed.
Example C71_shadow : exists m, projection_matrix (V 0 0 0) (V 0 0 3) (Some (V 1 0 1)) None false = Some m /\ image m (V 2 3 4) (V (-2) 3 0).
Proof.
  destruct (proj2 (C71_parallel (V 0 0 0) (V 0 0 3) (Some (V 1 0 1)))) as (m & E & I); [intros H; apply (f_equal vz) in H; vec_simpl; lra|vec_simpl; lra|]. exists m. split; [exact E|]. apply I. unfold on_plane, parallel. vec_simpl. split; [ring|apply vec_eq; cbn [vx vy vz]; ring].
Qed.
Example C71_picture : exists m, projection_matrix (V 0 0 2) (V 0 0 1) None (Some (V 0 0 4)) false = Some m /\ image m (V 2 3 3) (V 4 6 2) /\ forall Q, ~ image m (V 2 3 4) Q.
Proof.
  destruct (proj2 (C71_perspective (V 0 0 2) (V 0 0 1) None (V 0 0 4))) as (m & E & I); [intros H; apply (f_equal vz) in H; vec_simpl; lra|]. exists m. split; [exact E|]. split.
  - apply I. unfold on_plane, parallel. vec_simpl. split; [lra|]. split; [ring|apply vec_eq; cbn [vx vy vz]; ring].
  - intros Q H. apply I in H. destruct H as (H & _). apply H. vec_simpl. ring.
Qed.
Example C71_frustum : exists m, clip_matrix (-1) 1 (-2) 2 1 10 true = Some m /\ forall P, vz P = 5 -> exists Q, image m P Q /\ (in_cube Q <-> -5 <= vx P <= 5 /\ -10 <= vy P <= 10).
Proof.
  destruct (proj2 (C71_clip_frustum (-1) 1 (-2) 2 1 10)) as (m & E & _ & _ & I); [lra|lra|lra|simpl; lra|]. exists m. split; [exact E|]. intros P Z. destruct (proj2 (I P)) as (Q & H & C); [lra|]. exists Q. split; [exact H|]. rewrite C, Z. replace (5 / 1) with 5 by field. lra.
Qed.
Example C71_cube : exists m, clip_matrix (-1) 1 (-2) 2 1 10 false = Some m /\ clip_matrix 1 1 (-2) 2 1 10 false = None.
Proof.
  destruct (proj2 (C71_clip_box (-1) 1 (-2) 2 1 10)) as (m & E & _); [lra|lra|lra|]. exists m. split; [exact E|]. apply (C71_clip_box 1 1). lra.
Qed.
Example C71_slant : exists m, shear_matrix (PI / 4) (V 2 0 0) (V 0 0 1) (V 0 0 3) = Some m /\ image m (V 1 1 3) (V 3 1 3) /\ det (hl m) = 1.
Proof.
  assert (C : cos (PI / 4) <> 0) by (apply Rgt_not_eq, cos_gt_0; pose proof PI_RGT_0; lra).
  destruct (C71_shear (PI / 4) (V 2 0 0) (V 0 0 1) (V 0 0 3)) as (_ & I); [intros H; apply (f_equal vx) in H; vec_simpl; lra|intros H; apply (f_equal vz) in H; vec_simpl; lra|].
  assert (N2 : norm (V 2 0 0) = 2) by (unfold norm; replace (dot (V 2 0 0) (V 2 0 0)) with (2 * 2) by vec_ring; apply sqrt_square; lra).
  assert (N3 : norm (V 0 0 3) = 3) by (unfold norm; replace (dot (V 0 0 3) (V 0 0 3)) with (3 * 3) by vec_ring; apply sqrt_square; lra).
  rewrite N2, N3 in I. replace (dot (V 0 0 3) (V 2 0 0)) with 0 in I by vec_ring. rewrite Rabs_R0 in I. replace (0 / (3 * 2)) with 0 in I by field. destruct I as (m & E & Dt & I); [simpl; lra|exact C|]. exists m. split; [exact E|]. split.
  - apply I. rewrite tan_PI4. vec_simpl. apply vec_eq; cbn [vx vy vz]; field.
  - rewrite Dt. ring.
Qed.
Example C71_cubic : exists m, orthogonalization_matrix (V 1 2 3) (V 90 90 90) = Some m /\ dot (col0 (hl m)) (col1 (hl m)) = 0 /\ dot (col1 (hl m)) (col1 (hl m)) = 4.
Proof.
  pose proof (C71_cell (V 1 2 3) (V 90 90 90)) as H. cbn [vx vy vz] in H. replace (90 * PI / 180) with (PI / 2) in H by field. rewrite sin_PI2, cos_PI2 in H. destruct H as (_ & H).
  destruct H as (m & E & _ & _ & _ & H); [lra|rewrite Rmult_0_l, Rminus_0_r, Rabs_R0; apply Rabs_pos|]. exists m. split; [exact E|]. decompose [and] H. split; lra.
Qed.
Example C71_right_angle : exists t, angle_between_vectors (V 1 0 0) (V 0 5 0) true = Some t /\ cos t = 0.
Proof.
  destruct (C71_angle (V 1 0 0) (V 0 5 0)) as (_ & H & _). destruct H as ((t & E & B & C & _) & _); [intros H; apply (f_equal vx) in H; vec_simpl; lra|intros H; apply (f_equal vy) in H; vec_simpl; lra|]. exists t. split; [exact E|].
  rewrite (norm_unit (V 1 0 0)) in C by vec_ring. replace (norm (V 0 5 0)) with 5 in C by (unfold norm; replace (dot (V 0 5 0) (V 0 5 0)) with (5 * 5) by vec_ring; symmetry; apply sqrt_square; lra). vec_simpl. lra.
Qed.
Example C71_there_and_back : hmv (concatenate_matrices [translation_matrix (V 1 2 3); translation_matrix (V (-1) (-2) (-3))]) (HV (V 5 6 7) 1) = HV (V 5 6 7) 1.
Proof. rewrite C71_concatenate. unfold hmv, translation_matrix. cbn [fold_right hl ht hp hw hv h4]. f_equal; mat_ring. Qed.
Example C71_depth : exists ps, projection_matrix (V 0 0 2) (V 0 0 1) None (Some (V 0 0 4)) true = Some ps /\ forall P Q P' Q', image ps P Q -> image ps P' Q' -> vz P = 3 -> vz P' = 1 -> vz Q < vz Q'.
Proof.
  destruct (C71_pseudo (V 0 0 2) (V 0 0 1) None (V 0 0 4)) as (o & m & ps & _ & _ & E & _ & _ & I); [intros H; apply (f_equal vz) in H; vec_simpl; lra|]. exists ps. split; [exact E|]. intros P Q P' Q' H H' Z Z'. specialize (I P Q P' Q' H H'). vec_simpl. lra.
Qed.
