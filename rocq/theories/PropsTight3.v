(** Further theorems of C71: when two homogeneous matrices count as the same transformation. *)
From Coq Require Import Reals List Lra Lia Bool.
From Verif Require Import Base Vec RotModel RotProofs PlacementModel PlacementProofs AffineModel PropsAffine.
Import ListNotations.
Open Scope R_scope.

(** the sixteen entries, row by row *)
Definition entries (m : hmat) : list R :=
  let row v t := [vx v; vy v; vz v; t] in
  row (row0 (hl m)) (vx (ht m)) ++ row (row1 (hl m)) (vy (ht m)) ++ row (row2 (hl m)) (vz (ht m)) ++ row (hp m) (hw m).
Theorem C71_same_entries a b : is_same_transform a b = true <->
  hw a <> 0 /\ hw b <> 0 /\ Forall2 (fun x y => Rabs (x / hw a - y / hw b) <= / 10 ^ 8 + / 10 ^ 5 * Rabs (y / hw b)) (entries a) (entries b).
Proof.
  assert (T8 : / 10 ^ 8 = tol) by (unfold tol; f_equal; ring). assert (T5 : / 10 ^ 5 = / 100000) by (f_equal; ring). rewrite T8, T5.
  unfold is_same_transform, hdiv. destruct (Req_EM_T (hw a) 0) as [Z|A]; [split; [discriminate|intros (X & _); contradiction]|].
  destruct (Req_EM_T (hw b) 0) as [Z|B]; [split; [discriminate|intros (_ & X & _); contradiction]|].
  cbn [hl ht hp hw]. unfold allclose. rewrite !andb_true_iff, !isclose_true. destruct a as [[[a1 a2 a3] [a4 a5 a6] [a7 a8 a9]] [a10 a11 a12] [a13 a14 a15] wa], b as [[[b1 b2 b3] [b4 b5 b6] [b7 b8 b9]] [b10 b11 b12] [b13 b14 b15] wb]. cbn [hl ht hp hw mscale vmul3 row0 row1 row2 vx vy vz] in *.
  unfold entries. cbn [hl ht hp hw row0 row1 row2 vx vy vz app]. unfold Rdiv. rewrite !(Rmult_comm (/ wa)), !(Rmult_comm (/ wb)).
  split.
  - intros H. split; [exact A|]. split; [exact B|]. repeat apply Forall2_cons; try apply Forall2_nil; tauto.
  - intros (_ & _ & H). repeat match goal with H : Forall2 _ (_ :: _) (_ :: _) |- _ => inversion_clear H end. cbv beta in *. tauto.
Qed.
Example C71_same_entries_example : is_same_transform identity_matrix (translation_matrix (V 1 0 0)) = false.
Proof.
  destruct (is_same_transform _ _) eqn:E; [|reflexivity]. exfalso. apply C71_same_entries in E. destruct E as (_ & _ & E).
  unfold entries, identity_matrix, translation_matrix in E. cbn in E. repeat match goal with H : Forall2 _ (_ :: _) (_ :: _) |- _ => inversion_clear H end; cbv beta in *.
  match goal with H : Rabs (0 / 1 - 1 / 1) <= _ |- _ => rename H into Q end. replace (0 / 1 - 1 / 1) with (- (1)) in Q by field. replace (1 / 1) with 1 in Q by field. rewrite Rabs_Ropp, Rabs_R1 in Q. lra.
Qed.
