(** Properties of the special sums (C34). *)
From Coq Require Import List Arith ZArith Reals Lra Lia Permutation.
From Verif Require Import Base RotModel SumsModel.
Import ListNotations.
Open Scope R_scope.

(** specification side: an image with rows of equal length, its total, sums over pixels *)
Definition image (r c : nat) (m : list (list R)) : Prop := length m = r /\ forall row, In row m -> length row = c.
Definition total (m : list (list R)) : R := fold_right (fun row s => fold_right Rplus 0 row + s) 0 m.
(** sum of f over i < n *)
Fixpoint sumn (n : nat) (f : nat -> R) : R := match n with O => 0 | S n => sumn n f + f n end.
(** sum of the pixels selected by s *)
Definition pixsum (r c : nat) (m : list (list R)) (s : nat -> nat -> Prop) (dec : forall i j, {s i j} + {~ s i j}) : R :=
  sumn r (fun i => sumn c (fun j => if dec i j then nth j (nth i m []) 0 else 0)).

Definition suml (l : list R) : R := fold_right Rplus 0 l.
Lemma suml_app a b : suml (a ++ b) = suml a + suml b.
Proof. unfold suml. induction a; cbn; [ring|]. rewrite IHa. ring. Qed.
Lemma sumn_ext n f g : (forall i, (i < n)%nat -> f i = g i) -> sumn n f = sumn n g.
Proof. induction n; cbn; intros H; [auto|]. rewrite IHn, (H n) by auto. auto. Qed.
Lemma sumn_S_front n f : sumn (S n) f = f 0%nat + sumn n (fun i => f (S i)).
Proof. induction n; [cbn; ring|]. change (sumn (S (S n)) f) with (sumn (S n) f + f (S n)). rewrite IHn. cbn. ring. Qed.
Lemma sumn_rev n f : sumn n f = sumn n (fun i => f (n - 1 - i)%nat).
Proof.
  induction n as [|n IH]; [reflexivity|]. rewrite (sumn_S_front n (fun i => f (S n - 1 - i)%nat)). cbn [sumn]. rewrite IH.
  replace (S n - 1 - 0)%nat with n by lia. rewrite Rplus_comm. f_equal. apply sumn_ext. intros i H. f_equal. lia.
Qed.
Lemma suml_seq f n : suml (map f (seq 0 n)) = sumn n f.
Proof. induction n; [reflexivity|]. rewrite seq_S, map_app, suml_app, IHn. cbn. ring. Qed.
Lemma suml_flat {A B} (f : B -> R) (g : A -> list B) l : suml (map f (flat_map g l)) = suml (map (fun a => suml (map f (g a))) l).
Proof. induction l; cbn; [auto|]. rewrite map_app, suml_app. fold (suml (map f (flat_map g l))). rewrite IHl. auto. Qed.
Lemma suml_grid f m : suml (map f (grid m)) = sumn (nrows m) (fun i => sumn (ncols m) (fun j => f (i, j))).
Proof.
  unfold grid. rewrite suml_flat, suml_seq. apply sumn_ext. intros i _. rewrite map_map, suml_seq. auto.
Qed.
Lemma suml_nth l : suml l = sumn (length l) (fun i => nth i l 0).
Proof. induction l; [reflexivity|]. cbn [length]. rewrite sumn_S_front. cbn. fold (suml l). rewrite IHl. auto. Qed.
Lemma total_sumn r c m : image r c m -> total m = sumn r (fun i => sumn c (fun j => nth j (nth i m []) 0)).
Proof.
  intros [<- H]. induction m as [|row m IH]; [reflexivity|]. cbn [length]. rewrite sumn_S_front. cbn [total fold_right].
  fold (total m). rewrite IH by (intros; apply H; right; auto). f_equal.
  change (fold_right Rplus 0 row) with (suml row). rewrite suml_nth, (H row) by (left; auto). auto.
Qed.
Lemma in_grid m p : In p (grid m) <-> (fst p < nrows m)%nat /\ (snd p < ncols m)%nat.
Proof.
  unfold grid. rewrite in_flat_map. split.
  - intros [i [I H]]. apply in_map_iff in H. destruct H as [j [<- J]]. apply in_seq in I. apply in_seq in J. cbn. lia.
  - intros [A B]. exists (fst p). split; [apply in_seq; lia|]. apply in_map_iff. exists (snd p). split; [destruct p; auto|apply in_seq; lia].
Qed.
Lemma image_shape r c m : image r c m -> (0 < r)%nat -> nrows m = r /\ ncols m = c.
Proof. intros [A B] H. split; [auto|]. unfold ncols. destruct m as [|row m]; [cbn in *; lia|]. apply B. left. auto. Qed.
Lemma image_rev r c m : image r c m -> image r c (rev m).
Proof. intros [A B]. split; [rewrite rev_length; auto|]. intros row I. apply B. apply in_rev. auto. Qed.
Lemma total_rev m : total (rev m) = total m.
Proof.
  assert (T : forall l, total l = suml (map suml l)). { induction l; cbn; [auto|]. fold (total l). rewrite IHl. auto. }
  rewrite !T. rewrite map_rev. induction (map suml m); cbn; [auto|]. rewrite suml_app, IHl. cbn. fold (suml l). ring.
Qed.

(** bincount *)
Lemma add_at_length l k w : length (add_at l k w) = length l.
Proof. revert k. induction l; intros [|k]; cbn; auto. Qed.
Lemma add_at_nth l k w n : (k < length l)%nat -> nth n (add_at l k w) 0 = nth n l 0 + (if (n =? k)%nat then w else 0).
Proof.
  revert k n. induction l as [|b l IH]; intros k n H; [cbn in H; lia|]. destruct k as [|k], n as [|n]; cbn; try ring. rewrite IH by (cbn in H; lia). auto.
Qed.
Definition size (kw : list (Z * R)) (ml : nat) : nat := fold_right (fun e n => Nat.max (S (Z.to_nat (fst e))) n) ml kw.
Lemma size_cons f kw ml : size (f :: kw) ml = Nat.max (S (Z.to_nat (fst f))) (size kw ml). Proof. reflexivity. Qed.
Lemma size_ge kw ml e : In e kw -> (Z.to_nat (fst e) < size kw ml)%nat.
Proof. induction kw as [|f kw IH]; [intros []|]. rewrite size_cons. intros [->|I]; [lia|]. specialize (IH I). lia. Qed.
Lemma size_min kw ml : (ml <= size kw ml)%nat.
Proof. induction kw as [|f kw IH]; [cbn; lia|]. rewrite size_cons. lia. Qed.
Lemma size_cases kw ml : size kw ml = ml \/ exists e, In e kw /\ size kw ml = S (Z.to_nat (fst e)).
Proof.
  induction kw as [|f kw IH]; [auto|]. rewrite size_cons. destruct (Nat.max_spec (S (Z.to_nat (fst f))) (size kw ml)) as [[_ ->]|[_ ->]].
  - destruct IH as [->|[e [I ->]]]; [auto|right; exists e; split; [right|]; auto].
  - right. exists f. split; [left|]; auto.
Qed.
Lemma fold_bins kw bins : (forall e, In e kw -> (0 <= fst e)%Z /\ (Z.to_nat (fst e) < length bins)%nat) ->
  let out := fold_left (fun b e => add_at b (Z.to_nat (fst e)) (snd e)) kw bins in
  length out = length bins /\
  forall n, nth n out 0 = nth n bins 0 + suml (map (fun e => if (fst e =? Z.of_nat n)%Z then snd e else 0) kw).
Proof.
  revert bins. induction kw as [|e kw IH]; intros bins H; cbn; [split; [auto|intros; ring]|].
  destruct (IH (add_at bins (Z.to_nat (fst e)) (snd e))) as [A B].
  { intros f I. rewrite add_at_length. apply H. right. auto. }
  split; [rewrite A, add_at_length; auto|]. intros n. rewrite B. destruct (H e (or_introl eq_refl)) as [E0 E1].
  rewrite add_at_nth by auto. fold (suml (map (fun e => if (fst e =? Z.of_nat n)%Z then snd e else 0) kw)).
  replace (n =? Z.to_nat (fst e))%nat with (fst e =? Z.of_nat n)%Z; [ring|].
  destruct (Z.eqb_spec (fst e) (Z.of_nat n)), (Nat.eqb_spec n (Z.to_nat (fst e))); auto; lia.
Qed.
Lemma bincount_spec kw ml : (forall e, In e kw -> (0 <= fst e)%Z) ->
  exists out, bincount kw ml = Some out /\ length out = size kw ml /\
  forall n, nth n out 0 = suml (map (fun e => if (fst e =? Z.of_nat n)%Z then snd e else 0) kw).
Proof.
  intros H. unfold bincount. fold (size kw ml). replace (existsb (fun e => (fst e <? 0)%Z) kw) with false.
  - eexists. split; [reflexivity|]. destruct (fold_bins kw (repeat 0 (size kw ml))) as [A B].
    { intros e I. rewrite repeat_length. split; [apply H; auto|apply size_ge; auto]. }
    rewrite repeat_length in A. split; [exact A|]. intros n. rewrite B. rewrite nth_repeat. ring.
  - symmetry. destruct (existsb _ kw) eqn:E; [|auto]. apply existsb_exists in E. destruct E as [e [I E]]. specialize (H e I). apply Z.ltb_lt in E. lia.
Qed.
Lemma suml_add {A} (f g : A -> R) l : suml (map (fun a => f a + g a) l) = suml (map f l) + suml (map g l).
Proof. induction l; cbn; [ring|]. fold (suml (map (fun a => f a + g a) l)) (suml (map f l)) (suml (map g l)). rewrite IHl. ring. Qed.
Lemma sumn_add n f g : sumn n (fun a => f a + g a) = sumn n f + sumn n g.
Proof. induction n; cbn; [ring|]. rewrite IHn. ring. Qed.
Lemma sumn_0 n : sumn n (fun _ => 0) = 0. Proof. induction n; cbn; [auto|]. rewrite IHn. ring. Qed.
Lemma sumn_one n k w : (k < n)%nat -> sumn n (fun i => if (Z.of_nat k =? Z.of_nat i)%Z then w else 0) = w.
Proof.
  induction n; intros H; [lia|]. cbn. destruct (Nat.eq_dec k n) as [->|N].
  - rewrite Z.eqb_refl. rewrite (sumn_ext n _ (fun _ => 0)); [rewrite sumn_0; ring|]. intros i I. destruct (Z.eqb_spec (Z.of_nat n) (Z.of_nat i)); [lia|auto].
  - rewrite IHn by lia. destruct (Z.eqb_spec (Z.of_nat k) (Z.of_nat n)); [lia|ring].
Qed.
Lemma bincount_total kw out n : (forall e, In e kw -> (0 <= fst e)%Z /\ (Z.to_nat (fst e) < n)%nat) -> length out = n ->
  (forall n, nth n out 0 = suml (map (fun e => if (fst e =? Z.of_nat n)%Z then snd e else 0) kw)) -> suml out = suml (map snd kw).
Proof.
  intros H L O. rewrite suml_nth, L. rewrite (sumn_ext n _ (fun i => suml (map (fun e => if (fst e =? Z.of_nat i)%Z then snd e else 0) kw))) by auto.
  clear O. induction kw as [|e kw IH]; [apply sumn_0|]. change (suml (map snd (e :: kw))) with (snd e + suml (map snd kw)).
  rewrite (sumn_ext n _ (fun i => (if (fst e =? Z.of_nat i)%Z then snd e else 0) + suml (map (fun e => if (fst e =? Z.of_nat i)%Z then snd e else 0) kw))) by reflexivity.
  rewrite (sumn_add n (fun i => if (fst e =? Z.of_nat i)%Z then snd e else 0)).
  rewrite <- IH by (intros; apply H; right; auto). f_equal. destruct (H e (or_introl eq_refl)) as [A B].
  rewrite <- (sumn_one n (Z.to_nat (fst e)) (snd e) B) at 1. apply sumn_ext. intros i _. rewrite Z2Nat.id by auto. auto.
Qed.
Lemma floor_spec x k : Int_part x = k <-> IZR k <= x < IZR k + 1.
Proof.
  destruct (base_Int_part x) as [A B]. split; [intros <-; lra|]. intros [C D].
  assert (IZR (Int_part x) < IZR k + 1) by lra. assert (IZR k < IZR (Int_part x) + 1) by lra.
  rewrite <- plus_IZR in *. apply lt_IZR in H, H0. lia.
Qed.
Lemma floor_le x y : x <= y -> (Int_part x <= Int_part y)%Z.
Proof.
  intros H. destruct (base_Int_part x), (base_Int_part y). assert (X : IZR (Int_part x) < IZR (Int_part y) + 1) by lra.
  rewrite <- plus_IZR in X. apply lt_IZR in X. lia.
Qed.
Lemma floor_nonneg x : 0 <= x -> (0 <= Int_part x)%Z.
Proof. intros H. replace 0%Z with (Int_part 0); [apply floor_le; auto|]. apply floor_spec. lra. Qed.

(** * C34 *)
(** angle sums *)
Definition bins_of_angle (angle aspect : R) (binsize : option R) : R :=
  match binsize with Some b => b | None => Rmax (Rabs (cos angle * aspect)) (Rabs (sin angle)) end.

Lemma lin_min a b n (x : nat) : (x <= n)%nat -> Rmin b (a * INR n + b) <= a * INR x + b.
Proof.
  intros H. apply le_INR in H. pose proof (pos_INR x). destruct (Rle_dec 0 a).
  - apply Rle_trans with b; [apply Rmin_l|]. assert (0 <= a * INR x) by (apply Rmult_le_pos; auto). lra.
  - apply Rle_trans with (a * INR n + b); [apply Rmin_r|]. apply Rplus_le_compat_r. apply Rmult_le_compat_neg_l; lra.
Qed.
Lemma corner_min ca sa r c i j : (i <= r)%nat -> (j <= c)%nat ->
  let k i j := ca * INR j - sa * INR i in
  Rmin (Rmin (k 0%nat 0%nat) (k 0%nat c)) (Rmin (k r 0%nat) (k r c)) <= k i j.
Proof.
  intros I J k. subst k. cbv beta.
  pose proof (lin_min ca (- sa * INR i) c j J) as A.
  assert (B : forall x, Rmin (ca * INR x - sa * INR 0) (ca * INR x - sa * INR r) <= ca * INR x - sa * INR i).
  { intros x. pose proof (lin_min (- sa) (ca * INR x) r i I) as B. cbn [INR] in *. replace (ca * INR x - sa * 0) with (ca * INR x) by ring.
    replace (ca * INR x - sa * INR r) with (- sa * INR r + ca * INR x) by ring. lra. }
  pose proof (B 0%nat) as B0. pose proof (B c) as B1. cbn [INR] in *.
  unfold Rmin in *. repeat destruct (Rle_dec _ _); lra.
Qed.

Theorem C34_angle_conserves r c m angle aspect binsize : image r c m -> (0 < r)%nat -> (0 < c)%nat ->
  bins_of_angle angle aspect binsize <> 0 ->
  exists out, angle_sum m angle aspect binsize = Some out /\ suml out = total m.
Proof.
  intros IM R0 C0 B. unfold angle_sum. fold (bins_of_angle angle aspect binsize). rewrite !fdiv_some by auto. cbn [obind].
  pose proof (image_rev _ _ _ IM) as IR. destruct (image_shape _ _ _ IR R0) as [SR SC]. rewrite SR, SC.
  destruct (Nat.eqb_spec r 0); [lia|]. destruct (Nat.eqb_spec c 0); [lia|]. cbn [orb].
  set (ca := cos angle * aspect / bins_of_angle angle aspect binsize). set (sa := sin angle / bins_of_angle angle aspect binsize).
  match goal with |- exists out, bincount (map ?f _) _ = _ /\ _ => set (F := f) end.
  assert (P : forall e, In e (map F (grid (rev m))) -> (0 <= fst e)%Z).
  { intros e I. apply in_map_iff in I. destruct I as [[i j] [<- I]]. apply in_grid in I. cbn in I. rewrite SR, SC in I. unfold F. cbn [fst snd].
    apply floor_nonneg. pose proof (corner_min ca sa (r - 1) (c - 1) i j ltac:(lia) ltac:(lia)) as M. cbv beta zeta in M. lra. }
  destruct (bincount_spec (map F (grid (rev m))) 0 P) as [out [-> [L N]]]. exists out. split; [auto|].
  rewrite (bincount_total (map F (grid (rev m))) out (size (map F (grid (rev m))) 0)); auto.
  - rewrite map_map. cbn [F snd]. rewrite suml_grid, SR, SC. rewrite <- total_rev, (total_sumn _ _ _ IR). reflexivity.
  - intros e I. split; [auto|apply size_ge; auto].
Qed.

(** for angles from 0 to 90 degrees: exactly which pixel goes into which bin *)
Theorem C34_angle_bins r c m angle aspect binsize : image r c m -> (0 < r)%nat -> (0 < c)%nat ->
  0 <= angle <= PI / 2 -> 0 <= aspect -> 0 < bins_of_angle angle aspect binsize ->
  let b := bins_of_angle angle aspect binsize in
  let pos (i j : nat) := (aspect * cos angle * INR j + sin angle * INR i) / b + 1 / 2 in
  exists out, angle_sum m angle aspect binsize = Some out /\
  length out = S (Z.to_nat (Int_part (pos (r - 1) (c - 1))%nat)) /\
  forall n, nth n out 0 = sumn r (fun i => sumn c (fun j => if Z.eq_dec (Int_part (pos i j)) (Z.of_nat n) then nth j (nth i m []) 0 else 0)).
Proof.
  intros IM R0 C0 AN AS B b pos. unfold angle_sum. fold (bins_of_angle angle aspect binsize). fold b in B |- *. rewrite !fdiv_some by lra. cbn [obind].
  pose proof (image_rev _ _ _ IM) as IR. destruct (image_shape _ _ _ IR R0) as [SR SC]. rewrite SR, SC.
  destruct (Nat.eqb_spec r 0); [lia|]. destruct (Nat.eqb_spec c 0); [lia|]. cbn [orb].
  assert (CA : 0 <= cos angle * aspect / b). { apply Rmult_le_pos; [apply Rmult_le_pos; [apply cos_ge_0; lra|auto]|left; apply Rinv_0_lt_compat; auto]. }
  assert (SA : 0 <= sin angle / b). { apply Rmult_le_pos; [apply sin_ge_0; lra|left; apply Rinv_0_lt_compat; auto]. }
  assert (PE : forall i j, pos i j = cos angle * aspect / b * INR j + sin angle / b * INR i + 1 / 2) by (intros; unfold pos; field; lra).
  clearbody pos. revert PE. set (ca := cos angle * aspect / b) in *. set (sa := sin angle / b) in *. intros PE.
  match goal with |- context[Int_part (_ - (?km - _))] => replace km with (- sa * INR (r - 1)) end.
  2:{ cbn [INR]. assert (0 <= sa * INR (r - 1)) by (apply Rmult_le_pos; [auto|apply pos_INR]).
      assert (0 <= ca * INR (c - 1)) by (apply Rmult_le_pos; [auto|apply pos_INR]).
      rewrite (Rmin_left (ca * 0 - sa * 0)) by lra. rewrite (Rmin_left (ca * 0 - sa * INR (r - 1))) by lra. rewrite Rmin_right by lra. ring. }
  match goal with |- exists out, bincount (map ?f _) _ = _ /\ _ => set (F := f) end.
  assert (FE : forall i j, (i < r)%nat -> F (i, j) = (Int_part (pos (r - 1 - i) j)%nat, pix m (r - 1 - i) j)).
  { intros i j I. unfold F. cbn [fst snd]. f_equal.
    - f_equal. rewrite PE. replace (INR (r - 1 - i)) with (INR (r - 1) - INR i) by (rewrite <- minus_INR by lia; auto). ring.
    - unfold pix. destruct IM as [IM1 _]. rewrite rev_nth by lia. rewrite IM1. f_equal. f_equal. lia. }
  assert (PP : forall i j, 0 <= pos i j). { intros i j. rewrite PE. pose proof (pos_INR i). pose proof (pos_INR j). assert (0 <= ca * INR j) by (apply Rmult_le_pos; auto). assert (0 <= sa * INR i) by (apply Rmult_le_pos; auto). lra. }
  assert (P : forall e, In e (map F (grid (rev m))) -> (0 <= fst e <= Int_part (pos (r - 1) (c - 1))%nat)%Z).
  { intros e I. apply in_map_iff in I. destruct I as [[i j] [<- I]]. apply in_grid in I. cbn in I. rewrite SR, SC in I. rewrite FE by tauto. cbn [fst]. split; [apply floor_nonneg; auto|].
    apply floor_le. rewrite !PE. apply Rplus_le_compat_r, Rplus_le_compat; apply Rmult_le_compat_l; auto; apply le_INR; lia. }
  destruct (bincount_spec (map F (grid (rev m))) 0) as [out [-> [L N]]]; [intros e I; apply P; auto|]. exists out. split; [auto|]. split.
  - rewrite L. assert (G : In (F (0, c - 1)%nat) (map F (grid (rev m)))). { apply in_map. apply in_grid. cbn. lia. }
    pose proof (size_ge _ 0 _ G) as S1. rewrite FE in S1, G by auto. cbn [fst] in S1. replace (r - 1 - 0)%nat with (r - 1)%nat in S1 by lia.
    destruct (size_cases (map F (grid (rev m))) 0) as [S2|[e [I S2]]]; [rewrite S2 in S1; lia|]. rewrite S2 in S1 |- *. apply P in I. lia.
  - intros q. rewrite N, map_map, suml_grid, SR, SC. rewrite sumn_rev. apply sumn_ext. intros i I. apply sumn_ext. intros j J.
    rewrite FE by lia. cbn [fst snd]. replace (r - 1 - (r - 1 - i))%nat with i by lia.
    unfold pix. destruct (Z.eqb_spec (Int_part (pos i j)) (Z.of_nat q)), (Z.eq_dec (Int_part (pos i j)) (Z.of_nat q)); auto; contradiction.
Qed.
Lemma sumn_pick n k w : (k < n)%nat -> sumn n (fun i => if Z.eq_dec (Z.of_nat i) (Z.of_nat k) then w i else 0) = w k.
Proof.
  induction n; intros H; [lia|]. cbn [sumn]. destruct (Nat.eq_dec k n) as [->|N].
  - destruct (Z.eq_dec (Z.of_nat n) (Z.of_nat n)); [|lia]. rewrite (sumn_ext n _ (fun _ => 0)); [rewrite sumn_0; ring|].
    intros i I. destruct (Z.eq_dec _ _); [lia|auto].
  - rewrite IHn by lia. destruct (Z.eq_dec _ _); [lia|ring].
Qed.
Lemma floor_half n : Int_part (INR n + 1 / 2) = Z.of_nat n.
Proof. apply floor_spec. rewrite <- INR_IZR_INZ. lra. Qed.
Lemma nth_eq (a b : list R) : length a = length b -> (forall n, (n < length b)%nat -> nth n a 0 = nth n b 0) -> a = b.
Proof. intros L H. apply (nth_ext a b 0 0); auto. intros n I. apply H. lia. Qed.
Lemma suml_map_nth {A} (f : A -> R) l d : suml (map f l) = sumn (length l) (fun i => f (nth i l d)).
Proof. induction l; [reflexivity|]. cbn [length]. rewrite sumn_S_front. cbn. fold (suml (map f l)). rewrite IHl. auto. Qed.
(** angle 0 gives the column sums, 90 degrees the row sums, as documented *)
Theorem C34_angle_axes r c m aspect : image r c m -> (0 < r)%nat -> (0 < c)%nat -> 0 < aspect ->
  angle_sum m 0 aspect None = Some (map (fun j => suml (map (fun row => nth j row 0) m)) (seq 0 c)) /\
  angle_sum m (PI / 2) aspect None = Some (map suml m).
Proof.
  intros IM R0 C0 A. pose proof PI_RGT_0 as PI0. split.
  - assert (B : bins_of_angle 0 aspect None = aspect). { unfold bins_of_angle. rewrite cos_0, sin_0, Rabs_R0, Rmax_left; rewrite Rmult_1_l, Rabs_right; lra. }
    destruct (C34_angle_bins r c m 0 aspect None IM R0 C0) as [out [-> [L N]]]; [lra|lra|rewrite B; auto|]. rewrite B in *. f_equal.
    assert (PE : forall i j, (aspect * cos 0 * INR j + sin 0 * INR i) / aspect + 1 / 2 = INR j + 1 / 2) by (intros; rewrite cos_0, sin_0; field; lra).
    apply nth_eq. { rewrite L, PE, floor_half, map_length, seq_length. lia. }
    intros n H. rewrite map_length, seq_length in H. rewrite N.
    rewrite (nth_indep _ 0 (suml (map (fun row => nth 0 row 0) m))) by (rewrite map_length, seq_length; lia).
    rewrite (map_nth (fun j => suml (map (fun row => nth j row 0) m)) (seq 0 c) 0%nat n), seq_nth by lia. cbn [Nat.add].
    rewrite (suml_map_nth _ m []). rewrite (proj1 IM). apply sumn_ext. intros i I.
    rewrite (sumn_ext c _ (fun j => if Z.eq_dec (Z.of_nat j) (Z.of_nat n) then nth j (nth i m []) 0 else 0)) by (intros j J; rewrite PE, floor_half; auto).
    apply (sumn_pick c n (fun j => nth j (nth i m []) 0)). auto.
  - assert (B : bins_of_angle (PI / 2) aspect None = 1). { unfold bins_of_angle. rewrite cos_PI2, sin_PI2, Rmult_0_l, Rabs_R0, Rabs_R1. apply Rmax_right. lra. }
    destruct (C34_angle_bins r c m (PI / 2) aspect None IM R0 C0) as [out [-> [L N]]]; [lra|lra|rewrite B; lra|]. rewrite B in *. f_equal.
    assert (PE : forall i j, (aspect * cos (PI / 2) * INR j + sin (PI / 2) * INR i) / 1 + 1 / 2 = INR i + 1 / 2) by (intros; rewrite cos_PI2, sin_PI2; field; lra).
    apply nth_eq. { rewrite L, PE, floor_half, map_length, (proj1 IM). lia. }
    intros n H. rewrite map_length, (proj1 IM) in H. rewrite N.
    change 0 with (suml []) at 3. rewrite map_nth. rewrite suml_nth.
    rewrite (proj2 IM (nth n m [])) by (apply nth_In; rewrite (proj1 IM); auto).
    rewrite (sumn_ext r _ (fun i => if Z.eq_dec (Z.of_nat i) (Z.of_nat n) then sumn c (fun j => nth j (nth i m []) 0) else 0)).
    + apply (sumn_pick r n (fun i => sumn c (fun j => nth j (nth i m []) 0))). auto.
    + intros i I. rewrite (sumn_ext c _ (fun j => if Z.eq_dec (Z.of_nat i) (Z.of_nat n) then nth j (nth i m []) 0 else 0)) by (intros j J; rewrite PE, floor_half; auto).
      destruct (Z.eq_dec _ _); [auto|apply sumn_0].
Qed.

(** polar sums *)
Lemma ztrunc_pos x : 0 <= x -> ztrunc x = Int_part x. Proof. intros H. unfold ztrunc. destruct (Rle_dec 0 x); [auto|contradiction]. Qed.
Definition azimuthal_binsize (aspect : R) (binsize : option R) : R := match binsize with Some b => b | None => Rmin 1 aspect end.
Theorem C34_azimuthal r c m center aspect binsize : image r c m ->
  0 < azimuthal_binsize aspect binsize ->
  exists out, polar_sum m center Azimuthal aspect binsize = Some out /\ suml out = total m /\
  forall n, nth n out 0 = sumn r (fun i => sumn c (fun j =>
     let d := sqrt ((INR j - snd center) ^ 2 * aspect ^ 2 + (INR i - fst center) ^ 2) / azimuthal_binsize aspect binsize in
     if Rle_dec (INR n) d then if Rlt_dec d (INR n + 1) then nth j (nth i m []) 0 else 0 else 0)).
Proof.
  intros IM B. unfold polar_sum. fold (azimuthal_binsize aspect binsize). rewrite fdiv_some by lra. cbn [obind].
  set (b := azimuthal_binsize aspect binsize) in *.
  assert (SH : nrows m = r /\ (r <> 0%nat -> ncols m = c)). { split; [apply (proj1 IM)|]. intros N. apply (image_shape r c m); auto. lia. }
  destruct SH as [SR SC].
  match goal with |- exists out, bincount (map ?f _) _ = _ /\ _ => set (F := f) end.
  assert (P : forall e, In e (map F (grid m)) -> (0 <= fst e)%Z).
  { intros e I. apply in_map_iff in I. destruct I as [[i j] [<- I]]. unfold F. cbn [fst snd].
    assert (0 <= sqrt ((INR j - snd center) ^ 2 * aspect ^ 2 + (INR i - fst center) ^ 2) / b). { apply Rmult_le_pos; [apply sqrt_pos|left; apply Rinv_0_lt_compat; auto]. }
    rewrite ztrunc_pos by auto. apply floor_nonneg. auto. }
  destruct (bincount_spec (map F (grid m)) 0 P) as [out [-> [L N]]]. exists out. split; [auto|]. split.
  - rewrite (bincount_total (map F (grid m)) out (size (map F (grid m)) 0)); auto.
    + rewrite map_map. cbn [F snd]. rewrite suml_grid, SR, (total_sumn _ _ _ IM). destruct (Nat.eq_dec r 0) as [->|NZ]; [reflexivity|]. rewrite SC by auto. reflexivity.
    + intros e I. split; [auto|apply size_ge; auto].
  - intros n. rewrite N, map_map, suml_grid, SR. destruct (Nat.eq_dec r 0) as [->|NZ]; [reflexivity|]. rewrite SC by auto.
    apply sumn_ext. intros i I. apply sumn_ext. intros j J. unfold F. cbn [fst snd].
    assert (0 <= sqrt ((INR j - snd center) ^ 2 * aspect ^ 2 + (INR i - fst center) ^ 2) / b). { apply Rmult_le_pos; [apply sqrt_pos|left; apply Rinv_0_lt_compat; auto]. }
    rewrite ztrunc_pos by auto. revert H. generalize (sqrt ((INR j - snd center) ^ 2 * aspect ^ 2 + (INR i - fst center) ^ 2) / b). intros d D. cbv zeta.
    rewrite INR_IZR_INZ. destruct (Z.eqb_spec (Int_part d) (Z.of_nat n)) as [E|E].
    + apply floor_spec in E. destruct (Rle_dec _ _); [|lra]. destruct (Rlt_dec _ _); [reflexivity|lra].
    + destruct (Rle_dec _ _); [|auto]. destruct (Rlt_dec _ _); [|auto]. exfalso. apply E. apply floor_spec. lra.
Qed.

Lemma atan2_range y x : - PI < atan2 y x <= PI.
Proof.
  pose proof PI_RGT_0 as P. unfold atan2. pose proof (atan_bound (y / x)) as A.
  destruct (Rlt_dec 0 x); [lra|]. destruct (Rlt_dec x 0).
  - assert (I : / x < 0) by (apply Rinv_lt_0_compat; auto). destruct (Rle_dec 0 y).
    + assert (S : y / x <= 0). { unfold Rdiv. assert (0 <= y * - / x) by (apply Rmult_le_pos; lra). lra. }
      assert (atan (y / x) <= 0). { rewrite <- atan_0. destruct S as [S| ->]; [left; apply atan_increasing; auto|lra]. } lra.
    + assert (S : 0 < y / x). { unfold Rdiv. assert (0 < - y * - / x) by (apply Rmult_lt_0_compat; lra). lra. }
      assert (0 < atan (y / x)). { rewrite <- atan_0. apply atan_increasing; auto. } lra.
  - destruct (Rlt_dec 0 y); [lra|]. destruct (Rlt_dec y 0); lra.
Qed.
Lemma removelast_nth (l : list R) n : (S n < length l)%nat -> nth n (removelast l) 0 = nth n l 0.
Proof.
  revert n. induction l as [|a l IH]; intros n H; [cbn in H; lia|]. cbn [removelast]. destruct l as [|b l]; [cbn in H; lia|].
  destruct n as [|n]; [reflexivity|]. cbn [nth]. apply IH. cbn in *. lia.
Qed.
Lemma removelast_length (l : list R) : length (removelast l) = (length l - 1)%nat.
Proof. induction l as [|a l IH]; [reflexivity|]. cbn [removelast]. destruct l as [|b l]; [reflexivity|]. cbn [length] in *. lia. Qed.
Lemma suml_removelast l : l <> [] -> suml (removelast l) + last l 0 = suml l.
Proof. intros H. rewrite (app_removelast_last 0 H) at 3. rewrite suml_app. cbn. ring. Qed.
Lemma last_nth (l : list R) : last l 0 = nth (length l - 1) l 0.
Proof. induction l as [|a l IH]; [reflexivity|]. destruct l as [|b l]; [reflexivity|]. cbn [last length Nat.sub nth] in *. rewrite IH. cbn. rewrite Nat.sub_0_r. reflexivity. Qed.
Lemma suml_add_at l k w : (k < length l)%nat -> suml (add_at l k w) = suml l + w.
Proof. revert k. induction l as [|a l IH]; intros k H; [cbn in H; lia|]. destruct k; cbn; [ring|]. fold (suml (add_at l k w)) (suml l). rewrite IH by (cbn in H; lia). ring. Qed.

Definition radial_binsize (binsize : option R) : R := match binsize with Some b => b | None => 2 * PI / 100 end.
(** radial sums: number of bins, content of each bin, total *)
Theorem C34_radial r c m center aspect binsize : image r c m ->
  let b := radial_binsize binsize in 0 < b <= 2 * PI ->
  exists out, polar_sum m center Radial aspect binsize = Some out /\ suml out = total m /\
  Z.of_nat (length out) = Int_part (2 * PI / b) /\
  forall n, (n < length out)%nat -> nth n out 0 = sumn r (fun i => sumn c (fun j =>
     let a := atan2 (INR i - fst center) ((INR j - snd center) * aspect) + PI in
     (if Rle_dec (INR n * b) a then if Rlt_dec a ((INR n + 1) * b) then nth j (nth i m []) 0 else 0 else 0) +
     (if Nat.eq_dec n 0 then if Rle_dec (INR (length out) * b) a then nth j (nth i m []) 0 else 0 else 0))).
Proof.
  intros IM b [B0 B1]. pose proof PI_RGT_0 as PI0. unfold polar_sum. fold (radial_binsize binsize). fold b. rewrite !fdiv_some by lra. cbn [obind].
  assert (SH : nrows m = r /\ (r <> 0%nat -> ncols m = c)). { split; [apply (proj1 IM)|]. intros N. apply (image_shape r c m); auto. lia. }
  destruct SH as [SR SC].
  assert (DIV : forall x y, x <= y -> x / b <= y / b). { intros x y H. apply Rmult_le_compat_r; [left; apply Rinv_0_lt_compat; auto|auto]. }
  assert (L1 : 1 <= 2 * PI / b). { replace 1 with (b / b) by (field; lra). apply DIV. auto. }
  rewrite (ztrunc_pos (2 * PI / b)) by lra. assert (K1 : (1 <= Int_part (2 * PI / b))%Z). { replace 1%Z with (Int_part 1); [apply floor_le; auto|]. apply floor_spec. lra. }
  set (K := Int_part (2 * PI / b)) in *. destruct (Z.ltb_spec (K + 1) 0); [lia|].
  match goal with |- context[map ?f _] => set (F := f) end.
  assert (A : forall i j, 0 < atan2 (INR i - fst center) ((INR j - snd center) * aspect) + PI <= 2 * PI).
  { intros i j. pose proof (atan2_range (INR i - fst center) ((INR j - snd center) * aspect)). lra. }
  assert (A0 : forall i j, 0 <= (atan2 (INR i - fst center) ((INR j - snd center) * aspect) + PI) / b).
  { intros i j. apply Rmult_le_pos; [left; apply A|left; apply Rinv_0_lt_compat; auto]. }
  assert (P : forall e, In e (map F (grid m)) -> (0 <= fst e <= K)%Z).
  { intros e I. apply in_map_iff in I. destruct I as [[i j] [<- I]]. unfold F. cbn [fst snd]. rewrite ztrunc_pos by auto. split; [apply floor_nonneg; auto|].
    apply floor_le. apply DIV. apply A. }
  destruct (bincount_spec (map F (grid m)) (Z.to_nat (K + 1))) as [q [-> [L N]]]; [intros e I; apply P; auto|]. cbn [obind].
  assert (SZ : size (map F (grid m)) (Z.to_nat (K + 1)) = Z.to_nat (K + 1)).
  { destruct (size_cases (map F (grid m)) (Z.to_nat (K + 1))) as [E|[e [I E]]]; [auto|]. apply P in I.
    pose proof (size_min (map F (grid m)) (Z.to_nat (K + 1))). lia. }
  rewrite SZ in L. rewrite L, Nat.eqb_refl. cbn [negb]. destruct (Nat.eqb_spec (Z.to_nat (K + 1)) 0); [lia|].
  set (out := removelast (add_at q 0 (last q 0))). exists out. split; [auto|].
  assert (LO : length out = Z.to_nat K). { unfold out. rewrite removelast_length, add_at_length, L. lia. }
  assert (LQ : last q 0 = nth (Z.to_nat K) q 0). { rewrite last_nth, L. f_equal. lia. }
  split; [|split; [rewrite LO; lia|]].
  - assert (T : suml out = suml q).
    { assert (NE : add_at q 0 (last q 0) <> []). { intros X. apply (f_equal (@length R)) in X. rewrite add_at_length, L in X. cbn in X. lia. }
      pose proof (suml_removelast _ NE) as S1. fold out in S1. rewrite suml_add_at in S1 by lia.
      assert (LA : last (add_at q 0 (last q 0)) 0 = last q 0).
      { rewrite (last_nth (add_at q 0 (last q 0))), add_at_length, add_at_nth by lia. destruct (Nat.eqb_spec (length q - 1) 0); [lia|]. rewrite last_nth. ring. }
      lra. }
    rewrite T. rewrite (bincount_total (map F (grid m)) q (Z.to_nat (K + 1))); auto.
    + rewrite map_map. cbn [F snd]. rewrite suml_grid, SR, (total_sumn _ _ _ IM). destruct (Nat.eq_dec r 0) as [->|NZ]; [reflexivity|]. rewrite SC by auto. reflexivity.
    + intros e I. apply P in I. lia.
  - intros k H'. rewrite LO in H' |- *. unfold out. rewrite removelast_nth by (rewrite add_at_length; lia). rewrite add_at_nth by lia. rewrite LQ, !N.
    rewrite !map_map, !suml_grid, SR. destruct (Nat.eq_dec r 0) as [->|NZ]; [cbn [sumn]; destruct (k =? 0)%nat; ring|]. rewrite !SC by auto.
    assert (CELL : forall k i j, (fst (F (i, j)) =? Z.of_nat k)%Z = (if Rle_dec (INR k * b) (atan2 (INR i - fst center) ((INR j - snd center) * aspect) + PI) then if Rlt_dec (atan2 (INR i - fst center) ((INR j - snd center) * aspect) + PI) ((INR k + 1) * b) then true else false else false)).
    { intros k' i j. unfold F. cbn [fst snd]. rewrite ztrunc_pos by auto. generalize (atan2 (INR i - fst center) ((INR j - snd center) * aspect) + PI). intros a.
      rewrite INR_IZR_INZ. assert (M : forall z, z <= a / b <-> z * b <= a).
      { intros z. split; intros X; [apply (Rmult_le_compat_r b) in X; [|lra]|apply (Rmult_le_reg_r b); [lra|]]; replace (a / b * b) with a in * by (field; lra); auto. }
      destruct (Z.eqb_spec (Int_part (a / b)) (Z.of_nat k')) as [E|E].
      - apply floor_spec in E. destruct E as [E1 E2]. apply M in E1. destruct (Rle_dec _ _); [|contradiction]. destruct (Rlt_dec _ _) as [|W]; [auto|].
        exfalso. assert (W' : (IZR (Z.of_nat k') + 1) * b <= a) by lra. apply M in W'. lra.
      - destruct (Rle_dec _ _) as [W|]; [|auto]. destruct (Rlt_dec _ _) as [W'|]; [|auto]. exfalso. apply E. apply floor_spec. split; [apply M; auto|].
        apply (Rmult_lt_reg_r b); [lra|]. replace (a / b * b) with a by (field; lra). auto. }
    assert (K2 : forall i j, (fst (F (i, j)) =? Z.of_nat (Z.to_nat K))%Z = (if Rle_dec (INR (Z.to_nat K) * b) (atan2 (INR i - fst center) ((INR j - snd center) * aspect) + PI) then true else false)).
    { intros i j. rewrite CELL. destruct (Rle_dec _ _); [|auto]. destruct (Rlt_dec _ _) as [|W]; [auto|]. exfalso. apply W.
      destruct (A i j) as [_ A2]. apply Rle_lt_trans with (2 * PI); [auto|]. apply (Rmult_lt_reg_r (/ b)); [apply Rinv_0_lt_compat; auto|].
      replace ((INR (Z.to_nat K) + 1) * b * / b) with (INR (Z.to_nat K) + 1) by (field; lra). rewrite INR_IZR_INZ, Z2Nat.id by lia.
      destruct (proj1 (floor_spec (2 * PI / b) K) eq_refl). auto. }
    destruct (Nat.eqb_spec k 0) as [->|NK].
    + rewrite <- sumn_add. apply sumn_ext. intros i I. rewrite <- sumn_add. apply sumn_ext. intros j J. cbv zeta. rewrite CELL, K2.
      destruct (Nat.eq_dec 0 0); [|lia]. change (snd (F (i, j))) with (nth j (nth i m []) 0).
      repeat match goal with |- context[Rle_dec ?x ?y] => destruct (Rle_dec x y) | |- context[Rlt_dec ?x ?y] => destruct (Rlt_dec x y) end; cbv iota; ring.
    + rewrite Rplus_0_r. apply sumn_ext. intros i I. apply sumn_ext. intros j J. cbv zeta. rewrite CELL.
      destruct (Nat.eq_dec k 0); [lia|]. change (snd (F (i, j))) with (nth j (nth i m []) 0).
      repeat match goal with |- context[Rle_dec ?x ?y] => destruct (Rle_dec x y) | |- context[Rlt_dec ?x ?y] => destruct (Rlt_dec x y) end; cbv iota; ring.
Qed.

(** findings: with bins larger than the full circle the radial sum is empty and everything is
    lost, for every image ... *)
Theorem C34_radial_large_bin_refuted r c m center aspect b : image r c m -> 2 * PI < b ->
  polar_sum m center Radial aspect (Some b) = Some [].
Proof.
  intros IM B. pose proof PI_RGT_0 as PI0. unfold polar_sum. rewrite !fdiv_some by lra. cbn [obind].
  assert (SM : forall x, 0 <= x <= 2 * PI -> Int_part (x / b) = 0%Z).
  { intros x H. apply floor_spec. split; [apply Rmult_le_pos; [lra|left; apply Rinv_0_lt_compat; lra]|]. apply (Rmult_lt_reg_r b); [lra|].
    replace (x / b * b) with x by (field; lra). lra. }
  assert (PS : forall x, 0 <= x <= 2 * PI -> ztrunc (x / b) = 0%Z).
  { intros x H. rewrite ztrunc_pos; [auto|]. apply Rmult_le_pos; [lra|left; apply Rinv_0_lt_compat; lra]. }
  rewrite PS by lra. cbn [Z.add Z.ltb Z.compare]. change (Z.to_nat 1) with 1%nat.
  match goal with |- context[map ?f _] => set (F := f) end.
  assert (P : forall e, In e (map F (grid m)) -> fst e = 0%Z).
  { intros e I. apply in_map_iff in I. destruct I as [[i j] [<- I]]. unfold F. cbn [fst snd]. apply PS.
    pose proof (atan2_range (INR i - fst center) ((INR j - snd center) * aspect)). lra. }
  destruct (bincount_spec (map F (grid m)) 1) as [q [-> [L N]]]; [intros e I; rewrite (P e I); lia|]. cbn [obind].
  assert (SZ : size (map F (grid m)) 1 = 1%nat). { destruct (size_cases (map F (grid m)) 1) as [E|[e [I E]]]; [auto|]. rewrite (P e I) in E. exact E. }
  rewrite SZ in L. rewrite L. cbn. destruct q as [|x [|]]; cbn in L; try discriminate. reflexivity.
Qed.
(** ... and when the bin size does not divide the circle, the first bin, documented as the angles
    [-pi, -pi + binsize), also receives angles far from it *)
Theorem C34_radial_partial_bin_refuted : exists m center b, image 1 1 m /\ 0 < b <= 2 * PI /\
  - PI + b <= atan2 (INR 0 - fst center) (INR 0 - snd center) < PI /\
  polar_sum m center Radial 1 (Some b) = Some [1; 0].
Proof.
  pose proof PI_RGT_0 as P. exists [[1]], (- (1), 1), (4 * PI / 5).
  assert (A : atan2 (INR 0 - - (1)) (INR 0 - 1) = 3 * PI / 4).
  { cbn [INR]. replace (0 - - (1)) with 1 by ring. replace (0 - 1) with (- (1)) by ring. unfold atan2. destruct (Rlt_dec 0 (- (1))); [lra|]. destruct (Rlt_dec (- (1)) 0); [|lra].
    destruct (Rle_dec 0 1); [|lra]. replace (1 / - (1)) with (- (1)) by (field; lra). rewrite atan_opp, atan_1. field. }
  assert (IM : image 1 1 [[1]]). { split; [auto|]. intros row [<-|[]]. auto. }
  split; [auto|]. split; [lra|]. cbn [fst snd]. rewrite A. split; [lra|].
  destruct (C34_radial 1 1 [[1]] (- (1), 1) 1 (Some (4 * PI / 5)) IM) as [out [-> [T [L N]]]]; [cbn; lra|]. cbn [radial_binsize] in *. f_equal.
  assert (L2 : length out = 2%nat). { replace (Int_part (2 * PI / (4 * PI / 5))) with 2%Z in L; [lia|]. symmetry. apply floor_spec. replace (2 * PI / (4 * PI / 5)) with (5 / 2) by (field; lra). lra. }
  destruct out as [|x [|y [|]]]; cbn in L2; try discriminate. 
  pose proof (N 1%nat ltac:(cbn; lia)) as N1. cbn [nth sumn fst snd] in N1. rewrite Rmult_1_r, A in N1. cbn [INR length] in N1.
  destruct (Rle_dec (1 * (4 * PI / 5)) (3 * PI / 4 + PI)); [|lra]. destruct (Rlt_dec (3 * PI / 4 + PI) ((1 + 1) * (4 * PI / 5))); [lra|].
  destruct (Nat.eq_dec 1 0); [lia|]. cbn in T. f_equal; [|f_equal]; lra.
Qed.

(** with the default bin size no bin between the first and the last is left empty *)
Definition hit (r c : nat) (pos : nat -> nat -> R) (n : Z) : Prop := exists i j, (i < r)%nat /\ (j < c)%nat /\ Int_part (pos i j) = n.
Lemma walk (f : nat -> R) (n : nat) z : (forall i, (i < n)%nat -> f (S i) <= f i + 1) -> (Int_part (f 0%nat) <= z <= Int_part (f n))%Z ->
  exists i, (i <= n)%nat /\ Int_part (f i) = z.
Proof.
  induction n as [|n IH]; intros ST H; [exists 0%nat; split; [auto|lia]|].
  destruct (Z.eq_dec (Int_part (f (S n))) z) as [E|E]; [exists (S n); auto|].
  destruct IH as [i [I J]]; [intros; apply ST; lia| |exists i; split; [lia|auto]].
  split; [lia|]. specialize (ST n ltac:(lia)).
  assert (X : (Int_part (f (S n)) <= Int_part (f n) + 1)%Z).
  { apply Z.le_trans with (Int_part (f n + 1)); [apply floor_le; auto|]. apply Z.eq_le_incl. apply floor_spec. destruct (base_Int_part (f n)). rewrite plus_IZR. lra. }
  lia.
Qed.
Theorem C34_angle_no_gap r c m angle aspect : image r c m -> (0 < r)%nat -> (0 < c)%nat ->
  0 <= angle <= PI / 2 -> 0 <= aspect -> let b := Rmax (aspect * cos angle) (sin angle) in 0 < b ->
  exists out, angle_sum m angle aspect None = Some out /\
  forall n, (n < length out)%nat -> exists i j, (i < r)%nat /\ (j < c)%nat /\
    IZR (Z.of_nat n) <= (aspect * cos angle * INR j + sin angle * INR i) / b + 1 / 2 < IZR (Z.of_nat n) + 1.
Proof.
  intros IM R0 C0 AN AS b B. assert (BE : bins_of_angle angle aspect None = b).
  { unfold bins_of_angle, b. rewrite (Rmult_comm (cos angle)). rewrite !Rabs_right; [auto| |]; apply Rle_ge; [apply sin_ge_0; lra|apply Rmult_le_pos; [auto|apply cos_ge_0; lra]]. }
  destruct (C34_angle_bins r c m angle aspect None IM R0 C0 AN AS) as [out [O [L _]]]; [rewrite BE; auto|]. exists out. split; [auto|]. rewrite BE in L.
  intros n H. rewrite L in H.
  set (pos := fun i j => (aspect * cos angle * INR j + sin angle * INR i) / b + 1 / 2) in *.
  assert (ST : forall x, 0 <= x <= b -> x / b <= 1). { intros x X. apply (Rmult_le_reg_r b); [auto|]. replace (x / b * b) with x by (field; lra). lra. }
  assert (S0 : 0 <= sin angle <= b) by (split; [apply sin_ge_0; lra|apply Rmax_r]).
  assert (S1 : 0 <= aspect * cos angle <= b) by (split; [apply Rmult_le_pos; [auto|apply cos_ge_0; lra]|apply Rmax_l]).
  (* first along the first row, then down the last column *)
  assert (N0 : Int_part (pos 0 0)%nat = 0%Z). { apply floor_spec. unfold pos. cbn [INR]. replace ((aspect * cos angle * 0 + sin angle * 0) / b) with 0 by (field; lra). lra. }
  destruct (Z_le_gt_dec (Z.of_nat n) (Int_part (pos 0 (c - 1)%nat)%nat)) as [Z1|Z1].
  - destruct (walk (fun j => pos 0%nat j) (c - 1) (Z.of_nat n)) as [j [J E]].
    + intros j J. unfold pos. rewrite S_INR. specialize (ST _ S1). replace (_ / b) with ((aspect * cos angle * INR j + sin angle * INR 0) / b + aspect * cos angle / b) by (field; lra). lra.
    + cbv beta. lia.
    + exists 0%nat, j. split; [auto|]. split; [lia|]. apply floor_spec in E. exact E.
  - destruct (walk (fun i => pos i (c - 1)%nat) (r - 1) (Z.of_nat n)) as [i [I E]].
    + intros i I. unfold pos. rewrite S_INR. specialize (ST _ S0). replace (_ / b) with ((aspect * cos angle * INR (c - 1) + sin angle * INR i) / b + sin angle / b) by (field; lra). lra.
    + cbv beta. assert (NN : (0 <= Int_part (pos 0%nat (c - 1)%nat))%Z).
      { rewrite <- N0. apply floor_le. unfold pos. apply Rplus_le_compat_r. apply Rmult_le_compat_r; [left; apply Rinv_0_lt_compat; auto|].
        pose proof (pos_INR (c - 1)). assert (0 <= aspect * cos angle * INR (c - 1)) by (apply Rmult_le_pos; tauto). cbn [INR]. lra. }
      change ((aspect * cos angle * INR (c - 1) + sin angle * INR (r - 1)) / b + 1 / 2) with (pos (r - 1)%nat (c - 1)%nat) in H. lia.
    + exists i, (c - 1)%nat. split; [lia|]. split; [lia|]. apply floor_spec in E. exact E.
Qed.
Example C34_example : image 2 3 [[1; 2; 3]; [4; 5; 6]] /\ bins_of_angle (PI / 4) 1 (Some (1 / 2)) <> 0 /\ 0 < radial_binsize None <= 2 * PI /\ 0 < azimuthal_binsize 2 None.
Proof.
  pose proof PI_RGT_0. cbn. rewrite Rmin_left by lra. split; [split; [auto|intros row [<-|[<-|[]]]; auto]|]. lra.
Qed.
Print Assumptions C34_angle_conserves.
Print Assumptions C34_angle_bins.
Print Assumptions C34_angle_axes.
Print Assumptions C34_azimuthal.
Print Assumptions C34_radial.
Print Assumptions C34_radial_large_bin_refuted.
Print Assumptions C34_radial_partial_bin_refuted.
Print Assumptions C34_angle_no_gap.

(** a negative bin size (also from a negative aspect ratio): rejected as soon as one pixel is at
    least one bin away from the centre, otherwise everything is one bin *)
Theorem C34_negative_bin r c m center aspect b : image r c m -> (0 < r)%nat -> b < 0 ->
  let dist i j := sqrt ((INR j - snd center) ^ 2 * aspect ^ 2 + (INR i - fst center) ^ 2) in
  ((exists i j, (i < r)%nat /\ (j < c)%nat /\ - b <= dist i j) -> polar_sum m center Azimuthal aspect (Some b) = None) /\
  ((forall i j, (i < r)%nat -> (j < c)%nat -> dist i j < - b) ->
     exists out, polar_sum m center Azimuthal aspect (Some b) = Some out /\ (length out <= 1)%nat /\ suml out = total m).
Proof.
  intros IM R0 B dist. unfold polar_sum. rewrite fdiv_some by lra. cbn [obind]. destruct (image_shape _ _ _ IM R0) as [SR SC].
  match goal with |- (_ -> bincount (map ?f _) _ = _) /\ _ => set (F := f) end.
  assert (T : forall i j, fst (F (i, j)) = (- Int_part (dist i j / - b))%Z).
  { intros i j. unfold F. cbn [fst snd]. fold (dist i j). assert (D : 0 <= dist i j) by apply sqrt_pos. unfold ztrunc.
    assert (I : / b < 0) by (apply Rinv_lt_0_compat; auto).
    replace (dist i j / - b) with (- (dist i j / b)) by (field; lra). destruct (Rle_dec 0 (dist i j / b)) as [L|L]; [|auto].
    assert (Z : dist i j / b = 0). { apply Rle_antisym; [|auto]. unfold Rdiv. assert (0 <= dist i j * - / b) by (apply Rmult_le_pos; lra). lra. }
    rewrite Z, Ropp_0. replace (Int_part 0) with 0%Z; [auto|]. symmetry. apply floor_spec. lra. }
  split.
  - intros (i & j & I & J & D). unfold bincount.
    replace (existsb (fun e => (fst e <? 0)%Z) (map F (grid m))) with true; [auto|]. symmetry. apply existsb_exists.
    exists (F (i, j)). split; [apply in_map, in_grid; cbn; lia|]. rewrite T. apply Z.ltb_lt.
    assert (G : (1 <= Int_part (dist i j / - b))%Z); [|lia]. replace 1%Z with (Int_part 1) by (apply floor_spec; lra).
    apply floor_le. apply (Rmult_le_reg_r (- b)); [lra|]. replace (dist i j / - b * - b) with (dist i j) by (field; lra). lra.
  - intros H. assert (Z : forall e, In e (map F (grid m)) -> fst e = 0%Z).
    { intros e I. apply in_map_iff in I. destruct I as [[i j] [<- I]]. apply in_grid in I. cbn in I. rewrite T.
      replace (Int_part (dist i j / - b)) with 0%Z; [auto|]. symmetry. apply floor_spec. specialize (H i j ltac:(lia) ltac:(lia)). split.
      - apply Rmult_le_pos; [apply sqrt_pos|left; apply Rinv_0_lt_compat; lra].
      - apply (Rmult_lt_reg_r (- b)); [lra|]. replace (dist i j / - b * - b) with (dist i j) by (field; lra). lra. }
    destruct (bincount_spec (map F (grid m)) 0) as [out [-> [L N]]]; [intros e I; rewrite (Z e I); lia|]. exists out. split; [auto|]. split.
    + rewrite L. destruct (size_cases (map F (grid m)) 0) as [->|[e [I ->]]]; [lia|]. rewrite (Z e I). cbn. lia.
    + rewrite (bincount_total (map F (grid m)) out (size (map F (grid m)) 0)); auto.
      * rewrite map_map. cbn [F snd]. rewrite suml_grid, SR, SC, (total_sumn _ _ _ IM). reflexivity.
      * intros e I. rewrite (Z e I). split; [lia|]. rewrite <- (Z e I) at 1. apply size_ge. auto.
Qed.
Example C34_negative_bin_example : polar_sum [[1; 2]] (0, 0) Azimuthal 1 (Some (-1)) = None /\
  exists out, polar_sum [[1; 2]] (0, 0) Azimuthal 1 (Some (-2)) = Some out /\ (length out <= 1)%nat /\ suml out = 1 + (2 + 0) + 0.
Proof.
  assert (IM : image 1 2 [[1; 2]]) by (split; [auto|intros row [<-|[]]; auto]). split.
  - apply (proj1 (C34_negative_bin 1 2 _ (0, 0) 1 (-1) IM ltac:(lia) ltac:(lra))). exists 0%nat, 1%nat. repeat split; [lia|lia|]. cbn.
    replace ((1 - 0) * ((1 - 0) * 1) * (1 * (1 * 1)) + (0 - 0) * ((0 - 0) * 1)) with 1 by ring. rewrite sqrt_1. lra.
  - apply (proj2 (C34_negative_bin 1 2 _ (0, 0) 1 (-2) IM ltac:(lia) ltac:(lra))). intros i j I J. assert (i = 0)%nat as -> by lia. cbn.
    assert (X : 0 <= INR j <= 1). { split; [apply pos_INR|]. replace 1 with (INR 1) by auto. apply le_INR. lia. }
    apply Rle_lt_trans with (sqrt 1); [|rewrite sqrt_1; lra]. apply sqrt_le_1_alt. nra.
Qed.
Print Assumptions C34_negative_bin.
