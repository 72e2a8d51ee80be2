(** C93, continued: no rule with as many points and the same fixed ends is exact to a higher degree. *)
From Coq Require Import Reals List Lra Lia Psatz Arith.
From Verif Require Import Base SampleModel LegendreModel LegendreProofs PropsSample PropsQuadrature PropsRadau.
Import ListNotations.
Open Scope R_scope.

(** ** Auxiliary *)
(** every polynomial has a primitive *)
Fixpoint prim_from (k : nat) (c : list R) (x : R) : R := match c with [] => 0 | a :: c => a / INR (S k) * x ^ S k + prim_from (S k) c x end.
Lemma prim_derivable c x : forall k, derivable_pt_lim (prim_from k c) x (poly_from k c x).
Proof.
  induction c as [|a c IH]; intros k; [apply derivable_pt_lim_const|]. cbn [prim_from poly_from].
  apply (derivable_pt_lim_plus (fun x => a / INR (S k) * x ^ S k) (prim_from (S k) c)); [|apply IH].
  replace (a * x ^ k) with (a / INR (S k) * (INR (S k) * x ^ pred (S k))) by (cbn [pred]; field; apply not_0_INR; lia).
  apply (derivable_pt_lim_scal (fun x => x ^ S k)). apply derivable_pt_lim_pow.
Qed.
Lemma point_outside zs : forall a b : R, a < b -> exists x, a < x < b /\ ~ In x zs.
Proof.
  induction zs as [|z zs IH]; intros a b H; [exists ((a + b) / 2); split; [lra|auto]|].
  destruct (Rlt_dec a z) as [A|A]; [destruct (Rlt_dec z b) as [B|B]|].
  - destruct (IH a z A) as (x & X & N). exists x. split; [lra|]. intros [E|I]; [lra|auto].
  - destruct (IH a b H) as (x & X & N). exists x. split; [lra|]. intros [E|I]; [lra|auto].
  - destruct (IH a b H) as (x & X & N). exists x. split; [lra|]. intros [E|I]; [lra|auto].
Qed.
Lemma positive_integral f F zs : (forall x, derivable_pt_lim F x (f x)) -> (forall x, -1 <= x <= 1 -> 0 <= f x) -> (forall x, f x = 0 -> In x zs) -> 0 < F 1 - F (-1).
Proof.
  intros DF NN Z. assert (M : forall a b, -1 <= a -> a < b -> b <= 1 -> F a <= F b).
  { intros a b A H B. destruct (MVT_cor2 F f a b H (fun c _ => DF c)) as (c & E & C). specialize (NN c ltac:(lra)). assert (0 <= f c * (b - a)) by (apply Rmult_le_pos; lra). lra. }
  destruct (Rlt_dec (F (-1)) (F 1)) as [L|L]; [lra|exfalso]. destruct (point_outside zs (-1) 1 ltac:(lra)) as (x & X & N).
  assert (FX : 0 < f x). { specialize (NN x ltac:(lra)). assert (f x <> 0) by (intros E; apply N, Z, E). lra. }
  destruct (DF x (f x) FX) as ((de & DE) & H). cbn in H. set (h := Rmin (de / 2) (1 - x)). assert (HP : 0 < h) by (unfold h; apply Rmin_glb_lt; lra).
  assert (H1 : h <= de / 2) by apply Rmin_l. assert (H2 : h <= 1 - x) by apply Rmin_r. specialize (H h ltac:(lra)). rewrite (Rabs_pos_eq h) in H by lra. specialize (H ltac:(lra)).
  assert (E : F (x + h) = F x).
  { pose proof (M (-1) x ltac:(lra) ltac:(lra) ltac:(lra)). pose proof (M x (x + h) ltac:(lra) ltac:(lra) ltac:(lra)).
    destruct (Req_dec (x + h) 1) as [Q|Q]; [rewrite Q in *; lra|]. pose proof (M (x + h) 1 ltac:(lra) ltac:(lra) ltac:(lra)). lra. }
  rewrite E, Rminus_eq_0 in H. unfold Rdiv in H. rewrite Rmult_0_l, Rminus_0_l, Rabs_Ropp, (Rabs_pos_eq (f x)) in H by lra. lra.
Qed.
(** a polynomial times x - r *)
Definition ptimes (r : R) (p : list R) : list R := padd (0 :: p) (pscale (- r) p).
Lemma ptimes_eval r p x : peval (ptimes r p) x = (x - r) * peval p x.
Proof. unfold ptimes. rewrite peval_add, peval_scale, peval_cons. ring. Qed.
Lemma ptimes_length r p : length (ptimes r p) = S (length p).
Proof. unfold ptimes. rewrite padd_length, pscale_length. cbn [length]. lia. Qed.
(** the product of x - r over a list, as a polynomial *)
Definition from_zeros (rs : list R) : list R := fold_right ptimes [1] rs.
Lemma from_zeros_eval rs x : peval (from_zeros rs) x = prodr rs x.
Proof. induction rs as [|r rs IH]; [cbn; ring|]. cbn [from_zeros fold_right]. rewrite ptimes_eval. fold (from_zeros rs). rewrite IH. reflexivity. Qed.
Lemma from_zeros_length rs : length (from_zeros rs) = S (length rs).
Proof. induction rs as [|r rs IH]; [reflexivity|]. cbn [from_zeros fold_right]. rewrite ptimes_length. fold (from_zeros rs). rewrite IH. reflexivity. Qed.
Lemma wsum_zero (f : R -> R) xs : (forall x, In x xs -> f x = 0) -> forall ws, wsum f xs ws = 0.
Proof.
  induction xs as [|x xs IH]; intros H ws; [reflexivity|]. destruct ws as [|w ws]; [reflexivity|]. rewrite wsum_cons, IH, (H x (or_introl eq_refl)); [ring|]. intros y Y. apply H. right. exact Y.
Qed.

(** * C93 *)
(** Whatever n points with -1 among them and whatever weights are taken, some polynomial of degree 2 n - 1 is integrated wrongly;
    the rule of [gr_roots] is exact to one degree less and so is as good as any. *)
Theorem C93_radau_best xs ws : exists c F, length c = (2 * S (length xs))%nat /\ (forall x, derivable_pt_lim F x (poly c x)) /\
  wsum (poly c) (-1 :: xs) ws < F 1 - F (-1).
Proof.
  exists (from_zeros (-1 :: xs ++ xs)), (prim_from 0 (from_zeros (-1 :: xs ++ xs))). split; [rewrite from_zeros_length; cbn [length]; rewrite app_length; lia|].
  assert (EV : forall x, poly (from_zeros (-1 :: xs ++ xs)) x = (x + 1) * (prodr xs x) ^ 2) by (intros x; rewrite poly_eval, from_zeros_eval, prodr_cons, prodr_app; ring).
  split; [intros x; apply prim_derivable|]. rewrite wsum_zero.
  2:{ intros x [<-|I]; rewrite EV; [ring|]. apply prodr_zero in I. rewrite I. ring. }
  apply (positive_integral (poly (from_zeros (-1 :: xs ++ xs))) _ (-1 :: xs)).
  - intros x. apply prim_derivable.
  - intros x X. rewrite EV. apply Rmult_le_pos; [lra|apply pow2_ge_0].
  - intros x. rewrite EV. intros E. apply Rmult_integral in E. destruct E as [E|E]; [left; lra|right]. apply prodr_zero. cbn [pow] in E. apply Rmult_integral in E. rewrite Rmult_1_r in E. tauto.
Qed.
(** The same for n points with both ends among them and degree 2 n - 2: the rule of [gl_roots] is as good as any. *)
Theorem C93_lobatto_best xs ws : exists c F, length c = (2 * S (S (length xs)) - 1)%nat /\ (forall x, derivable_pt_lim F x (poly c x)) /\
  wsum (poly c) (-1 :: xs ++ [1]) ws > F 1 - F (-1).
Proof.
  set (p := from_zeros (-1 :: 1 :: xs ++ xs)). exists p, (prim_from 0 p). split; [unfold p; rewrite from_zeros_length; cbn [length]; rewrite !app_length; cbn [length]; lia|].
  assert (EV : forall x, poly p x = - ((1 - x) * (x + 1) * (prodr xs x) ^ 2)) by (intros x; unfold p; rewrite poly_eval, from_zeros_eval, !prodr_cons, prodr_app; ring).
  split; [intros x; apply prim_derivable|]. rewrite wsum_zero.
  2:{ intros x [<-|I]; rewrite EV; [ring|]. apply in_app_or in I. destruct I as [I|[<-|[]]]; [apply prodr_zero in I; rewrite I; ring|ring]. }
  assert (PI : 0 < - prim_from 0 p 1 - - prim_from 0 p (-1)).
  { apply (positive_integral (fun x => - poly p x) (fun x => - prim_from 0 p x) (-1 :: xs ++ [1])).
    - intros x. apply (derivable_pt_lim_opp (prim_from 0 p)). apply prim_derivable.
    - intros x X. rewrite EV, Ropp_involutive. apply Rmult_le_pos; [apply Rmult_le_pos; lra|apply pow2_ge_0].
    - intros x. rewrite EV, Ropp_involutive. intros E. apply Rmult_integral in E. destruct E as [E|E]; [apply Rmult_integral in E; destruct E as [E|E]; [right; apply in_or_app; right; left; lra|left; lra]|].
      right. apply in_or_app. left. apply prodr_zero. cbn [pow] in E. apply Rmult_integral in E. rewrite Rmult_1_r in E. tauto. }
  lra.
Qed.
(** with two points: the fourth coefficient is needed, as the rule with nodes -1 and 1/3 shows *)
Example C93_best_example : exists c F, length c = 4%nat /\ (forall x, derivable_pt_lim F x (poly c x)) /\ wsum (poly c) [-1; 1/3] [1/2; 3/2] < F 1 - F (-1).
Proof. apply (C93_radau_best [1/3] [1/2; 3/2]). Qed.
