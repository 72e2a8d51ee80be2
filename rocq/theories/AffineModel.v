(** Model of the homogeneous transformations of /repo/rayopt/transformations.py: constructors of affine and
    projective maps.  Arguments are taken with their first three entries ([point[:3]] of the code); floats are
    reals, [None] is a raised exception or a result that is not finite. *)
From Coq Require Import Reals List Bool.
From Verif Require Import Base Vec RotModel PlacementModel PupilModel.
Import ListNotations.
Open Scope R_scope.

(** 4x4 matrices by blocks: [hl] is [M[:3, :3]], [ht] is [M[:3, 3]], [hp] is [M[3, :3]], [hw] is [M[3, 3]] *)
Record hmat := HM { hl : mat; ht : vec; hp : vec; hw : R }.
(** four entries of a homogeneous vector; transformations.py:295-296, 370-371 *)
Record hvec := HV { hv : vec; h4 : R }.

(** [numpy.dot] of two 4x4 matrices, of a matrix and a column *)
Definition hmm (a b : hmat) : hmat :=
  HM (madd (mm (hl a) (hl b)) (outer (ht a) (hp b)))
     (vadd3 (mv (hl a) (ht b)) (vmul3 (hw b) (ht a)))
     (vadd3 (vm (hp a) (hl b)) (vmul3 (hw a) (hp b)))
     (dot (hp a) (ht b) + hw a * hw b).
(** [numpy.dot(M, v)] of a matrix and a homogeneous column: the action of transformations.py:209-1872, as in the doctests :392, 1846-1850 *)
Definition hmv (a : hmat) (p : hvec) : hvec :=
  HV (vadd3 (mv (hl a) (hv p)) (vmul3 (h4 p) (ht a))) (dot (hp a) (hv p) + hw a * h4 p).
(** [M /= s]; transformations.py:856, 1869-1871 *)
Definition hdiv (m : hmat) (s : R) : option hmat :=
  if Req_EM_T s 0 then None
  else Some (HM (mscale (/ s) (hl m)) (vmul3 (/ s) (ht m)) (vmul3 (/ s) (hp m)) (hw m / s)).

(** transformations.py:205-217 [identity_matrix] *)
Definition identity_matrix : hmat := HM eye v0 v0 1.
(** transformations.py:220-230 [translation_matrix] *)
Definition translation_matrix (direction : vec) : hmat := HM eye direction v0 1.
(** transformations.py:233-242 [translation_from_matrix] *)
Definition translation_from_matrix (m : hmat) : vec := ht m.
(** transformations.py:245-268 [reflection_matrix] *)
Definition reflection_matrix (point normal : vec) : option hmat :=
  do n <- unit_vector normal;
  Some (HM (madd eye (mscale (- (2)) (outer n n))) (vmul3 (2 * dot point n) n) v0 1).
(** transformations.py:300-341 [rotation_matrix] with [point] *)
Definition rotation_about (angle : R) (direction : vec) (point : option vec) : option hmat :=
  do r <- rotation_matrix angle direction;
  Some (match point with
        | Some p => HM r (vsub3 p (mv r p)) v0 1
        | None => HM r v0 v0 1
        end).
(** transformations.py:384-415 [scale_matrix] *)
Definition scale_matrix (factor : R) (origin direction : option vec) : option hmat :=
  match direction with
  | None =>
      let l := M (V factor 0 0) (V 0 factor 0) (V 0 0 factor) in
      Some (match origin with
            | Some o => HM l (vmul3 (1 - factor) o) v0 1
            | None => HM l v0 v0 1
            end)
  | Some d =>
      do d <- unit_vector d;
      let factor := 1 - factor in
      let l := madd eye (mscale (- factor) (outer d d)) in
      Some (match origin with
            | Some o => HM l (vmul3 (factor * dot o d) d) v0 1
            | None => HM l v0 v0 1
            end)
  end.
(** transformations.py:459-518 [projection_matrix] *)
Definition projection_matrix (point normal : vec) (direction perspective : option vec) (pseudo : bool) : option hmat :=
  do n <- unit_vector normal;
  match perspective with
  | Some p =>
      let s := dot (vsub3 p point) n in
      let l := madd (M (V s 0 0) (V 0 s 0) (V 0 0 s)) (mscale (- (1)) (outer p n)) in
      Some (if pseudo
            then HM (madd l (mscale (- (1)) (outer n n))) (vmul3 (dot point n) (vadd3 p n)) (vneg n) (dot p n)
            else HM l (vmul3 (dot point n) p) (vneg n) (dot p n))
  | None =>
      match direction with
      | Some d =>
          let scale := dot d n in
          if Req_EM_T scale 0 then None
          else Some (HM (madd eye (mscale (- (1) / scale) (outer d n))) (vmul3 (dot point n / scale) d) v0 1)
      | None => Some (HM (madd eye (mscale (- (1)) (outer n n))) (vmul3 (dot point n) n) v0 1)
      end
  end.
(** transformations.py:594-643 [clip_matrix] *)
Definition clip_matrix (left right bottom top near far : R) (perspective : bool) : option hmat :=
  if Rle_dec right left then None else if Rle_dec top bottom then None else if Rle_dec far near then None else
  if perspective then
    if Rle_dec near EPS then None else
    let t := 2 * near in
    Some (HM (M (V (t / (left - right)) 0 ((right + left) / (right - left)))
                (V 0 (t / (bottom - top)) ((top + bottom) / (top - bottom)))
                (V 0 0 ((far + near) / (near - far))))
             (V 0 0 (t * far / (far - near))) (V 0 0 (- (1))) 0)
  else
    Some (HM (M (V (2 / (right - left)) 0 0) (V 0 (2 / (top - bottom)) 0) (V 0 0 (2 / (far - near))))
             (V ((right + left) / (left - right)) ((top + bottom) / (bottom - top)) ((far + near) / (near - far)))
             v0 1).
(** transformations.py:646-674 [shear_matrix]; a right angle is [None] *)
Definition shear_matrix (angle : R) (direction point normal : vec) : option hmat :=
  do n <- unit_vector normal;
  do d <- unit_vector direction;
  if Rlt_dec (1 / 1000000) (Rabs (dot n d)) then None else
  do t <- ftan angle;
  Some (HM (madd eye (mscale t (outer d n))) (vmul3 (- t * dot point n) d) v0 1).
(** transformations.py:860-884 [orthogonalization_matrix]; the angles are in degrees *)
Definition radians (x : R) : R := x * PI / 180.
(** transformations.py:860-884 [orthogonalization_matrix] *)
Definition orthogonalization_matrix (lengths angles : vec) : option hmat :=
  let '(V a b c) := lengths in
  let sina := sin (radians (vx angles)) in let sinb := sin (radians (vy angles)) in
  let cosa := cos (radians (vx angles)) in let cosb := cos (radians (vy angles)) in let cosg := cos (radians (vz angles)) in
  do co <- fdiv (cosa * cosb - cosg) (sina * sinb);
  do r <- fsqrt (1 - co * co);
  Some (HM (M (V (a * sinb * r) 0 0) (V (- a * sinb * co) (b * sina) 0) (V (a * cosb) (b * cosa) c)) v0 v0 1).

(** transformations.py:1677-1713 [vector_norm] of a vector of any length *)
Definition sum_sq (l : list R) : R := fold_right (fun x a => x * x + a) 0 l.
(** transformations.py:1677-1713 [vector_norm]: the square root of the sum of squares *)
Definition vector_norm (l : list R) : R := sqrt (sum_sq l).
(** transformations.py:1775-1793 [vector_product] *)
Definition vector_product (a b : vec) : vec := cross a b.
(** [numpy.arccos]: NaN outside of [-1, 1] *)
Definition facos (x : R) : option R :=
  if Rle_dec (- (1)) x then if Rle_dec x 1 then Some (acos x) else None else None.
(** transformations.py:1796-1824 [angle_between_vectors] *)
Definition angle_between_vectors (a b : vec) (directed : bool) : option R :=
  do d <- fdiv (dot a b) (norm a * norm b);
  facos (if directed then d else Rabs d).
(** transformations.py:1843-1856 [concatenate_matrices] *)
Definition concatenate_matrices (ms : list hmat) : hmat := fold_left hmm ms identity_matrix.
(** transformations.py:1859-1872 [is_same_transform]; a NaN entry is never close *)

Definition is_same_transform (a b : hmat) : bool :=
  match hdiv a (hw a), hdiv b (hw b) with
  | Some a, Some b =>
      (allclose (row0 (hl a)) (row0 (hl b)) && allclose (row1 (hl a)) (row1 (hl b)) && allclose (row2 (hl a)) (row2 (hl b)) &&
       allclose (ht a) (ht b) && allclose (hp a) (hp b) && isclose (hw a) (hw b))%bool
  | _, _ => false
  end.
