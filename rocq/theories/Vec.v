(** Real 3-vectors and 3x3 matrices (numpy arrays of shape (3,) and (3, 3)). *)
From Coq Require Import Reals Lra Psatz List.
Open Scope R_scope.

Record vec := V { vx : R; vy : R; vz : R }.
(** rows of the matrix *)
Record mat := M { row0 : vec; row1 : vec; row2 : vec }.

Definition vadd3 (a b : vec) : vec := V (vx a + vx b) (vy a + vy b) (vz a + vz b).
Definition vsub3 (a b : vec) : vec := V (vx a - vx b) (vy a - vy b) (vz a - vz b).
Definition vmul3 (s : R) (a : vec) : vec := V (s * vx a) (s * vy a) (s * vz a).
Definition vneg (a : vec) : vec := V (- vx a) (- vy a) (- vz a).
Definition dot (a b : vec) : R := vx a * vx b + vy a * vy b + vz a * vz b.
Definition cross (a b : vec) : vec :=
  V (vy a * vz b - vz a * vy b) (vz a * vx b - vx a * vz b) (vx a * vy b - vy a * vx b).
Definition norm (a : vec) : R := sqrt (dot a a).
Definition v0 : vec := V 0 0 0.
Definition ex : vec := V 1 0 0.
Definition ey : vec := V 0 1 0.
Definition ez : vec := V 0 0 1.

Definition eye : mat := M ex ey ez.
Definition col0 (m : mat) : vec := V (vx (row0 m)) (vx (row1 m)) (vx (row2 m)).
Definition col1 (m : mat) : vec := V (vy (row0 m)) (vy (row1 m)) (vy (row2 m)).
Definition col2 (m : mat) : vec := V (vz (row0 m)) (vz (row1 m)) (vz (row2 m)).
Definition mT (m : mat) : mat := M (col0 m) (col1 m) (col2 m).
(** row vector times matrix, [np.dot(y, r)] *)
Definition vm (y : vec) (m : mat) : vec := V (dot y (col0 m)) (dot y (col1 m)) (dot y (col2 m)).
(** matrix times column vector, [np.dot(r, y)] *)
Definition mv (m : mat) (y : vec) : vec := V (dot (row0 m) y) (dot (row1 m) y) (dot (row2 m) y).
Definition mm (a b : mat) : mat := M (vm (row0 a) b) (vm (row1 a) b) (vm (row2 a) b).
Definition det (m : mat) : R := dot (row0 m) (cross (row1 m) (row2 m)).

(** entry access, [m[i, j]] *)
Definition vget (v : vec) (i : nat) : R := match i with 0 => vx v | 1 => vy v | _ => vz v end%nat.
Definition vset (v : vec) (i : nat) (s : R) : vec :=
  match i with
  | 0 => V s (vy v) (vz v) | 1 => V (vx v) s (vz v) | _ => V (vx v) (vy v) s
  end%nat.
Definition mrow (m : mat) (i : nat) : vec := match i with 0 => row0 m | 1 => row1 m | _ => row2 m end%nat.
Definition mget (m : mat) (i j : nat) : R := vget (mrow m i) j.
Definition mset (m : mat) (i j : nat) (s : R) : mat :=
  match i with
  | 0 => M (vset (row0 m) j s) (row1 m) (row2 m)
  | 1 => M (row0 m) (vset (row1 m) j s) (row2 m)
  | _ => M (row0 m) (row1 m) (vset (row2 m) j s)
  end%nat.

(** specification: proper rotations *)
Definition rotation (m : mat) : Prop := mm m (mT m) = eye /\ mm (mT m) m = eye /\ det m = 1.

Lemma vec_eq a b : vx a = vx b -> vy a = vy b -> vz a = vz b -> a = b.
Proof. destruct a, b; simpl; congruence. Qed.
Lemma mat_eq a b : row0 a = row0 b -> row1 a = row1 b -> row2 a = row2 b -> a = b.
Proof. destruct a, b; simpl; congruence. Qed.

Ltac vec_simpl :=
  unfold mm, mv, vm, mT, col0, col1, col2, det, dot, cross, vadd3, vsub3, vmul3, vneg,
    eye, ex, ey, ez, v0 in *; cbn [vx vy vz row0 row1 row2] in *.
Ltac vec_ring := repeat match goal with v : vec |- _ => destruct v | m : mat |- _ => destruct m end;
  vec_simpl; repeat (apply mat_eq || apply vec_eq); cbn [vx vy vz row0 row1 row2]; try ring.

Lemma dot_comm a b : dot a b = dot b a. Proof. vec_ring. Qed.
Lemma dot_nonneg a : 0 <= dot a a.
Proof. unfold dot. pose proof (Rle_0_sqr (vx a)). pose proof (Rle_0_sqr (vy a)).
  pose proof (Rle_0_sqr (vz a)). unfold Rsqr in *. lra. Qed.
Lemma dot_zero a : dot a a = 0 -> a = v0.
Proof.
  unfold dot. intros H. pose proof (Rle_0_sqr (vx a)). pose proof (Rle_0_sqr (vy a)).
  pose proof (Rle_0_sqr (vz a)). unfold Rsqr in *.
  apply vec_eq; simpl; apply Rsqr_0_uniq; unfold Rsqr; lra.
Qed.
Lemma norm_nonneg a : 0 <= norm a. Proof. apply sqrt_pos. Qed.
Lemma norm_sqr a : norm a * norm a = dot a a.
Proof. unfold norm. apply sqrt_sqrt, dot_nonneg. Qed.
Lemma norm_zero a : norm a = 0 <-> a = v0.
Proof.
  split.
  - intros H. apply dot_zero. rewrite <- norm_sqr, H. ring.
  - intros ->. unfold norm, dot, v0. simpl. rewrite !Rmult_0_l, !Rplus_0_r. apply sqrt_0.
Qed.
Lemma norm_unit a : dot a a = 1 -> norm a = 1.
Proof. intros H. unfold norm. rewrite H. apply sqrt_1. Qed.
Lemma dot_scale_l s a b : dot (vmul3 s a) b = s * dot a b. Proof. vec_ring. Qed.
Lemma dot_scale_r s a b : dot a (vmul3 s b) = s * dot a b. Proof. vec_ring. Qed.
Lemma dot_neg a b : dot (vneg a) (vneg b) = dot a b. Proof. vec_ring. Qed.
Lemma dot_add_l a b c : dot (vadd3 a b) c = dot a c + dot b c. Proof. vec_ring. Qed.
Lemma dot_add_r a b c : dot c (vadd3 a b) = dot c a + dot c b. Proof. vec_ring. Qed.
Lemma norm_neg a : norm (vneg a) = norm a.
Proof. unfold norm. rewrite dot_neg. reflexivity. Qed.
Lemma norm_scale s a : norm (vmul3 s a) = Rabs s * norm a.
Proof.
  unfold norm. rewrite dot_scale_l, dot_scale_r, <- Rmult_assoc.
  rewrite sqrt_mult; [|apply Rle_0_sqr|apply dot_nonneg]. f_equal. apply sqrt_Rsqr_abs.
Qed.

Lemma vm_mm y a b : vm y (mm a b) = vm (vm y a) b. Proof. vec_ring. Qed.
Lemma vm_eye y : vm y eye = y. Proof. vec_ring. Qed.
Lemma mm_eye_l a : mm eye a = a. Proof. vec_ring. Qed.
Lemma mm_eye_r a : mm a eye = a. Proof. vec_ring. Qed.
Lemma mm_assoc a b c : mm a (mm b c) = mm (mm a b) c. Proof. vec_ring. Qed.
Lemma mT_mm a b : mT (mm a b) = mm (mT b) (mT a). Proof. vec_ring. Qed.
Lemma mT_mT a : mT (mT a) = a. Proof. vec_ring. Qed.
Lemma mT_eye : mT eye = eye. Proof. reflexivity. Qed.
Lemma det_mm a b : det (mm a b) = det a * det b. Proof. vec_ring. Qed.
Lemma det_mT a : det (mT a) = det a. Proof. vec_ring. Qed.
Lemma det_eye : det eye = 1. Proof. vec_ring. Qed.
Lemma mv_vm m y : mv m y = vm y (mT m). Proof. vec_ring. Qed.
Lemma vm_add y z m : vm (vadd3 y z) m = vadd3 (vm y m) (vm z m). Proof. vec_ring. Qed.
Lemma vm_scale s y m : vm (vmul3 s y) m = vmul3 s (vm y m). Proof. vec_ring. Qed.
Lemma dot_vm a b m : dot (vm a m) b = dot a (vm b (mT m)). Proof. vec_ring. Qed.

Lemma rotation_eye : rotation eye.
Proof. unfold rotation. rewrite mT_eye, mm_eye_l, det_eye. auto. Qed.
Lemma rotation_mT a : rotation a -> rotation (mT a).
Proof. intros (H1 & H2 & H3). unfold rotation. rewrite mT_mT, det_mT. auto. Qed.
Lemma rotation_mm a b : rotation a -> rotation b -> rotation (mm a b).
Proof.
  intros (H1 & H2 & H3) (H4 & H5 & H6). unfold rotation. rewrite mT_mm, det_mm.
  repeat split.
  - rewrite mm_assoc, <- (mm_assoc a b), H4, mm_eye_r. auto.
  - rewrite mm_assoc, <- (mm_assoc (mT b)), H2, mm_eye_r. auto.
  - rewrite H3, H6. ring.
Qed.

(** consequences: a rotation is a rigid motion *)
Lemma rotation_inv_r m y : rotation m -> vm (vm y m) (mT m) = y.
Proof. intros (H & _). rewrite <- vm_mm, H. apply vm_eye. Qed.
Lemma rotation_inv_l m y : rotation m -> vm (vm y (mT m)) m = y.
Proof. intros (_ & H & _). rewrite <- vm_mm, H. apply vm_eye. Qed.
Lemma rotation_dot m a b : rotation m -> dot (vm a m) (vm b m) = dot a b.
Proof. intros H. rewrite dot_vm, rotation_inv_r by auto. reflexivity. Qed.
Lemma rotation_norm m a : rotation m -> norm (vm a m) = norm a.
Proof. intros H. unfold norm. rewrite rotation_dot by auto. reflexivity. Qed.

(** rows/columns of a rotation are their own cofactors *)
Definition cofactor (m : mat) : mat :=
  M (cross (row1 m) (row2 m)) (cross (row2 m) (row0 m)) (cross (row0 m) (row1 m)).
Lemma cofactor_mul m : mm m (mT (cofactor m)) = M (vmul3 (det m) ex) (vmul3 (det m) ey) (vmul3 (det m) ez).
Proof. unfold cofactor. vec_ring. Qed.
Lemma rotation_cofactor m : rotation m -> cofactor m = m.
Proof.
  intros (H1 & H2 & H3). pose proof (cofactor_mul m) as H. rewrite H3 in H.
  assert (E : mT (cofactor m) = mT m).
  { rewrite <- (mm_eye_l (mT (cofactor m))), <- H2, <- mm_assoc, H.
    replace (M (vmul3 1 ex) (vmul3 1 ey) (vmul3 1 ez)) with eye by vec_ring.
    apply mm_eye_r. }
  rewrite <- (mT_mT (cofactor m)), E, mT_mT. reflexivity.
Qed.
Lemma cross_vm m a b : cross (vm a m) (vm b m) = vm (cross a b) (cofactor m).
Proof. unfold cofactor. vec_ring. Qed.
Lemma rotation_cross m a b : rotation m -> cross (vm a m) (vm b m) = vm (cross a b) m.
Proof. intros H. rewrite cross_vm, rotation_cofactor by auto. reflexivity. Qed.
