(** C34, continued: the angle sum at every angle.  Turning the summation direction is the same as mirroring the image, so
    the theorem on angles from 0 to 90 degrees covers all angles; the sums at 180 and 270 degrees and along diagonals
    follow as documented. *)
From Coq Require Import List Arith ZArith Reals Lra Lia Permutation.
From Verif Require Import Base RotModel SumsModel PropsSums.
Import ListNotations.
Open Scope R_scope.

(** ** bincount does not depend on the order of the pixels *)
Lemma add_at_swap bins : forall k w k' w', add_at (add_at bins k w) k' w' = add_at (add_at bins k' w') k w.
Proof.
  induction bins as [|b bins IH]; intros [|k] w [|k'] w'; cbn; auto; f_equal; try ring. apply IH.
Qed.
Lemma bincount_perm kw kw' ml : Permutation kw kw' -> bincount kw ml = bincount kw' ml.
Proof.
  intros P. unfold bincount.
  assert (E : existsb (fun e => (fst e <? 0)%Z) kw = existsb (fun e => (fst e <? 0)%Z) kw').
  { induction P as [|x l l' P IH|x y l|l l' l'' P1 IH1 P2 IH2]; cbn; [auto|rewrite IH; auto|rewrite !Bool.orb_assoc, (Bool.orb_comm (fst y <? 0)%Z); auto|congruence]. }
  assert (N : fold_right (fun e n => Nat.max (S (Z.to_nat (fst e))) n) ml kw = fold_right (fun e n => Nat.max (S (Z.to_nat (fst e))) n) ml kw').
  { clear E. induction P as [|x l l' P IH|x y l|l l' l'' P1 IH1 P2 IH2]; cbn [fold_right]; [auto|rewrite IH; auto|rewrite !Nat.max_assoc, (Nat.max_comm (S (Z.to_nat (fst y)))); auto|congruence]. }
  rewrite E, N. destruct (existsb _ kw'); [reflexivity|]. cbv zeta. f_equal. clear E N.
  generalize (repeat 0 (fold_right (fun e n => Nat.max (S (Z.to_nat (fst e))) n) ml kw')) as bins.
  induction P as [|x l l' P IH|x y l|l l' l'' P1 IH1 P2 IH2]; intros bins; cbn [fold_left]; [auto|apply IH|rewrite add_at_swap; auto|rewrite IH1; apply IH2].
Qed.
Lemma NoDup_flat {A B} (f : A -> list B) l : NoDup l -> (forall a, In a l -> NoDup (f a)) -> (forall a b x, In a l -> In b l -> In x (f a) -> In x (f b) -> a = b) -> NoDup (flat_map f l).
Proof.
  induction 1 as [|a l NI ND IH]; intros F D; cbn; [constructor|].
  assert (Q : NoDup (flat_map f l)) by (apply IH; [intros; apply F; right; auto|intros b c x I J; apply D; right; auto]).
  assert (G : NoDup (f a)) by (apply F; left; auto).
  assert (X : forall x, In x (f a) -> ~ In x (flat_map f l)).
  { intros x I J. apply in_flat_map in J. destruct J as (b & J & K). apply NI. rewrite (D a b x); auto; [left; auto|right; auto]. }
  revert G X. generalize (f a) as u. induction u as [|x u IU]; intros G X; cbn; [exact Q|]. inversion G; subst. constructor.
  - rewrite in_app_iff. intros [I|I]; [contradiction|]. exact (X x (or_introl eq_refl) I).
  - apply IU; auto. intros z I. apply X. right. auto.
Qed.
Lemma NoDup_map_in {A B} (f : A -> B) l : NoDup l -> (forall x y, In x l -> In y l -> f x = f y -> x = y) -> NoDup (map f l).
Proof.
  induction 1 as [|a l NI ND IH]; intros I; cbn; constructor.
  - rewrite in_map_iff. intros (x & E & J). apply NI. rewrite (I a x); auto; [left; auto|right; auto].
  - apply IH. intros x y X Y. apply I; right; auto.
Qed.
Lemma grid_nodup m : NoDup (grid m).
Proof.
  unfold grid. apply NoDup_flat; [apply seq_NoDup| |].
  - intros i _. apply NoDup_map_in; [apply seq_NoDup|]. intros x y _ _ E. congruence.
  - intros a b x _ _ I J. apply in_map_iff in I, J. destruct I as (u & <- & _). destruct J as (v & E & _). congruence.
Qed.
Lemma grid_perm m m' s : nrows m' = nrows m -> ncols m' = ncols m ->
  (forall p, In p (grid m) -> In (s p) (grid m) /\ s (s p) = p) -> Permutation (map s (grid m)) (grid m').
Proof.
  intros R C S. assert (G : grid m' = grid m) by (unfold grid; rewrite R, C; reflexivity). rewrite G.
  apply NoDup_Permutation; [|apply grid_nodup|].
  - apply NoDup_map_in; [apply grid_nodup|]. intros x y X Y E. rewrite <- (proj2 (S x X)), <- (proj2 (S y Y)). congruence.
  - intros p. rewrite in_map_iff. split.
    + intros (q & <- & I). apply S. auto.
    + intros I. exists (s p). split; apply S; auto.
Qed.

(** ** the sum along a direction, and its mirror images *)
Definition along (ca sa : R) (m : list (list R)) : option (list R) :=
  let k i j := ca * INR j - sa * INR i in
  let i1 := (nrows m - 1)%nat in let j1 := (ncols m - 1)%nat in
  let km := Rmin (Rmin (k 0 0)%nat (k 0%nat j1)) (Rmin (k i1 0%nat) (k i1 j1)) in
  bincount (map (fun p => (Int_part (k (fst p) (snd p) - (km - 1 / 2)), pix m (fst p) (snd p))) (grid m)) 0.
Lemma image_map_rev r c m : image r c m -> image r c (map (@rev R) m).
Proof. intros [A B]. split; [rewrite map_length; auto|]. intros row I. apply in_map_iff in I. destruct I as (x & <- & I). rewrite rev_length. auto. Qed.
Lemma along_rows r c m ca sa : image r c m -> (0 < r)%nat -> along ca (- sa) m = along ca sa (rev m).
Proof.
  intros IM R0. destruct (image_shape _ _ _ IM R0) as [SR SC]. destruct (image_shape _ _ _ (image_rev _ _ _ IM) R0) as [TR TC].
  unfold along. rewrite TR, TC, SR, SC. apply bincount_perm.
  set (s := fun p : nat * nat => ((r - 1 - fst p)%nat, snd p)).
  rewrite <- (Permutation_map _ (grid_perm m (rev m) s ltac:(congruence) ltac:(congruence)
    ltac:(intros [i j] I; apply in_grid in I; rewrite SR, SC in I; cbn [fst snd] in *; unfold s; cbn [fst snd]; split; [apply in_grid; rewrite SR, SC; cbn; lia|f_equal; lia]))).
  rewrite map_map. match goal with |- Permutation ?a ?b => assert (EQ : a = b); [|rewrite EQ; apply Permutation_refl] end. apply map_ext_in. intros [i j] I. apply in_grid in I. rewrite SR, SC in I. cbn [fst snd] in *. unfold s. cbn [fst snd]. f_equal.
  - f_equal. replace (INR (r - 1 - i)) with (INR (r - 1) - INR i) by (rewrite <- minus_INR by lia; reflexivity). cbn [INR].
    set (x := INR (r - 1)). set (z := INR (c - 1)). set (u := INR i). set (v := INR j). clearbody x z u v.
    unfold Rmin. repeat destruct (Rle_dec _ _); lra.
  - unfold pix. destruct IM as [L _]. rewrite rev_nth by lia. f_equal. f_equal. lia.
Qed.
Lemma along_cols r c m ca sa : image r c m -> (0 < r)%nat -> along (- ca) sa m = along ca sa (map (@rev R) m).
Proof.
  intros IM R0. destruct (image_shape _ _ _ IM R0) as [SR SC]. destruct (image_shape _ _ _ (image_map_rev _ _ _ IM) R0) as [TR TC].
  unfold along. rewrite TR, TC, SR, SC. apply bincount_perm.
  set (s := fun p : nat * nat => (fst p, (c - 1 - snd p)%nat)).
  rewrite <- (Permutation_map _ (grid_perm m (map (@rev R) m) s ltac:(congruence) ltac:(congruence)
    ltac:(intros [i j] I; apply in_grid in I; rewrite SR, SC in I; cbn [fst snd] in *; unfold s; cbn [fst snd]; split; [apply in_grid; rewrite SR, SC; cbn; lia|f_equal; lia]))).
  rewrite map_map. match goal with |- Permutation ?a ?b => assert (EQ : a = b); [|rewrite EQ; apply Permutation_refl] end. apply map_ext_in. intros [i j] I. apply in_grid in I. rewrite SR, SC in I. cbn [fst snd] in *. unfold s. cbn [fst snd]. f_equal.
  - f_equal. replace (INR (c - 1 - j)) with (INR (c - 1) - INR j) by (rewrite <- minus_INR by lia; reflexivity). cbn [INR].
    set (x := INR (r - 1)). set (z := INR (c - 1)). set (u := INR i). set (v := INR j). clearbody x z u v.
    unfold Rmin. repeat destruct (Rle_dec _ _); lra.
  - unfold pix. destruct IM as [L W]. rewrite (map_nth (@rev R) m []). assert (LR : length (nth i m []) = c) by (apply W, nth_In; lia).
    rewrite rev_nth by lia. rewrite LR. f_equal. lia.
Qed.
Lemma angle_along r c m angle aspect binsize : image r c m -> (0 < r)%nat -> (0 < c)%nat ->
  angle_sum m angle aspect binsize = if Req_EM_T (bins_of_angle angle aspect binsize) 0 then None
    else along (cos angle * aspect / bins_of_angle angle aspect binsize) (sin angle / bins_of_angle angle aspect binsize) (rev m).
Proof.
  intros IM R0 C0. unfold angle_sum. fold (bins_of_angle angle aspect binsize). set (b := bins_of_angle angle aspect binsize).
  destruct (Req_EM_T b 0) as [Z|Z].
  - unfold fdiv. destruct (Req_EM_T b 0); [reflexivity|contradiction].
  - rewrite !fdiv_some by exact Z. cbn [obind]. destruct (image_shape _ _ _ (image_rev _ _ _ IM) R0) as [TR TC].
    replace ((nrows (rev m) =? 0)%nat || (ncols (rev m) =? 0)%nat)%bool with false; [reflexivity|].
    rewrite TR, TC. destruct (Nat.eqb_spec r 0); [lia|]. destruct (Nat.eqb_spec c 0); [lia|]. reflexivity.
Qed.
(** mirrored directions are mirrored images; a direction turned by half a turn is the image turned by half a turn *)
Theorem C34_angle_symmetry r c m angle aspect binsize : image r c m -> (0 < r)%nat -> (0 < c)%nat ->
  angle_sum m (- angle) aspect binsize = angle_sum (rev m) angle aspect binsize /\
  angle_sum m (PI - angle) aspect binsize = angle_sum (map (@rev R) m) angle aspect binsize /\
  angle_sum m (angle + PI) aspect binsize = angle_sum (rev (map (@rev R) m)) angle aspect binsize /\
  forall k, angle_sum m (angle + 2 * INR k * PI) aspect binsize = angle_sum m angle aspect binsize.
Proof.
  intros IM R0 C0. pose proof (image_rev _ _ _ IM) as IR. pose proof (image_map_rev _ _ _ IM) as IC. pose proof (image_rev _ _ _ IC) as IB.
  assert (BINS : forall a, Rabs (cos a * aspect) = Rabs (cos angle * aspect) -> Rabs (sin a) = Rabs (sin angle) -> bins_of_angle a aspect binsize = bins_of_angle angle aspect binsize).
  { intros a C S. unfold bins_of_angle. destruct binsize; [reflexivity|]. rewrite C, S. reflexivity. }
  assert (CR : map (@rev R) (rev m) = rev (map (@rev R) m)) by apply map_rev.
  split; [|split; [|split]].
  - rewrite !(angle_along r c) by auto. rewrite BINS by (rewrite ?cos_neg, ?sin_neg, ?Rabs_Ropp; reflexivity).
    destruct (Req_EM_T _ 0); [reflexivity|]. rewrite cos_neg, sin_neg. unfold Rdiv. rewrite Ropp_mult_distr_l_reverse. apply (along_rows r c); auto.
  - assert (C : cos (PI - angle) = - cos angle) by (rewrite Rtrigo_facts.cos_pi_minus; reflexivity). assert (S : sin (PI - angle) = sin angle) by (rewrite sin_PI_x; reflexivity).
    rewrite !(angle_along r c) by auto. rewrite BINS by (rewrite ?C, ?S, ?Ropp_mult_distr_l_reverse, ?Rabs_Ropp; reflexivity).
    destruct (Req_EM_T _ 0); [reflexivity|]. rewrite C, S. unfold Rdiv. rewrite !Ropp_mult_distr_l_reverse. rewrite (along_cols r c) by auto. rewrite CR. reflexivity.
  - rewrite !(angle_along r c) by auto. rewrite BINS by (rewrite ?neg_cos, ?neg_sin, ?Ropp_mult_distr_l_reverse, ?Rabs_Ropp; reflexivity).
    destruct (Req_EM_T _ 0); [reflexivity|]. rewrite neg_cos, neg_sin. unfold Rdiv. rewrite !Ropp_mult_distr_l_reverse.
    rewrite (along_rows r c) by auto. rewrite rev_involutive, (along_cols r c) by auto. rewrite rev_involutive. reflexivity.
  - intros k. rewrite !(angle_along r c) by auto. rewrite BINS by (rewrite ?cos_period, ?sin_period; reflexivity). rewrite cos_period, sin_period. reflexivity.
Qed.
(** 180 degrees: the column sums, last column first; 270 degrees: the row sums, last row first; a full turn: as 0 *)
Theorem C34_angle_reversed r c m aspect : image r c m -> (0 < r)%nat -> (0 < c)%nat -> 0 < aspect ->
  angle_sum m PI aspect None = Some (rev (map (fun j => suml (map (fun row => nth j row 0) m)) (seq 0 c))) /\
  angle_sum m (3 * (PI / 2)) aspect None = Some (rev (map suml m)) /\
  angle_sum m (- (PI / 2)) aspect None = Some (rev (map suml m)) /\
  angle_sum m (2 * PI) aspect None = Some (map (fun j => suml (map (fun row => nth j row 0) m)) (seq 0 c)).
Proof.
  intros IM R0 C0 A. pose proof (image_rev _ _ _ IM) as IR. pose proof (image_map_rev _ _ _ IM) as IC. pose proof (image_rev _ _ _ IC) as IB.
  assert (ROW : forall row, suml (rev row) = suml row).
  { induction row as [|x row IH]; [reflexivity|]. cbn [rev]. rewrite suml_app, IH. cbn. fold (suml row). ring. }
  split; [|split; [|split]].
  - replace PI with (PI - 0) by ring. rewrite (proj1 (proj2 (C34_angle_symmetry r c m 0 aspect None IM R0 C0))).
    rewrite (proj1 (C34_angle_axes r c (map (@rev R) m) aspect IC R0 C0 A)). f_equal. rewrite <- map_rev.
    apply nth_eq; [rewrite !map_length, rev_length; reflexivity|]. intros n N. rewrite map_length, rev_length, seq_length in N.
    set (F := fun j => suml (map (fun row => nth j row 0) (map (@rev R) m))). set (G := fun j => suml (map (fun row => nth j row 0) m)).
    rewrite (nth_indep _ 0 (F 0%nat)) by (rewrite map_length, seq_length; lia). rewrite (map_nth F (seq 0 c) 0%nat n).
    rewrite (nth_indep _ 0 (G 0%nat)) by (rewrite map_length, rev_length, seq_length; lia). rewrite (map_nth G (rev (seq 0 c)) 0%nat n).
    rewrite rev_nth by (rewrite seq_length; lia). rewrite !seq_length. rewrite !seq_nth by lia. cbn [Nat.add]. unfold F, G. rewrite map_map. f_equal.
    apply map_ext_in. intros row I. rewrite rev_nth by (rewrite (proj2 IM row I); lia). rewrite (proj2 IM row I). reflexivity.
  - replace (3 * (PI / 2)) with (PI / 2 + PI) by field. rewrite (proj1 (proj2 (proj2 (C34_angle_symmetry r c m (PI / 2) aspect None IM R0 C0)))).
    rewrite (proj2 (C34_angle_axes r c _ aspect IB R0 C0 A)). f_equal. rewrite map_rev, map_map. f_equal. apply map_ext. exact ROW.
  - rewrite (proj1 (C34_angle_symmetry r c m (PI / 2) aspect None IM R0 C0)). rewrite (proj2 (C34_angle_axes r c _ aspect IR R0 C0 A)). f_equal. apply map_rev.
  - replace (2 * PI) with (0 + 2 * INR 1 * PI) by (cbn; ring). rewrite (proj2 (proj2 (proj2 (C34_angle_symmetry r c m 0 aspect None IM R0 C0)))).
    apply (C34_angle_axes r c m aspect IM R0 C0 A).
Qed.
(** 45 degrees with square pixels: the antidiagonals; 135 degrees: the diagonals *)
Theorem C34_angle_diagonals r c m : image r c m -> (0 < r)%nat -> (0 < c)%nat ->
  exists anti diag, angle_sum m (PI / 4) 1 None = Some anti /\ angle_sum m (3 * (PI / 4)) 1 None = Some diag /\
  length anti = (r + c - 1)%nat /\ length diag = (r + c - 1)%nat /\
  (forall n, nth n anti 0 = sumn r (fun i => sumn c (fun j => if Nat.eq_dec (i + j) n then nth j (nth i m []) 0 else 0))) /\
  (forall n, nth n diag 0 = sumn r (fun i => sumn c (fun j => if Nat.eq_dec (i + (c - 1)) (n + j) then nth j (nth i m []) 0 else 0))).
Proof.
  intros IM R0 C0. pose proof PI_RGT_0 as P0.
  assert (S2 : 0 < sin (PI / 4)) by (rewrite sin_PI4; apply Rdiv_lt_0_compat; [lra|apply sqrt_lt_R0; lra]).
  assert (CS : cos (PI / 4) = sin (PI / 4)) by (rewrite sin_PI4, cos_PI4; reflexivity).
  assert (B : bins_of_angle (PI / 4) 1 None = sin (PI / 4)) by (unfold bins_of_angle; rewrite CS, Rmult_1_r, Rabs_right by lra; apply Rmax_left; lra).
  assert (ANTI : forall m, image r c m -> exists anti, angle_sum m (PI / 4) 1 None = Some anti /\ length anti = (r + c - 1)%nat /\
    forall n, nth n anti 0 = sumn r (fun i => sumn c (fun j => if Nat.eq_dec (i + j) n then nth j (nth i m []) 0 else 0))).
  { clear m IM. intros m IM. destruct (C34_angle_bins r c m (PI / 4) 1 None IM R0 C0) as (out & E & L & N); [lra|lra|rewrite B; lra|]. rewrite B in L, N.
    assert (PE : forall i j, Int_part ((1 * cos (PI / 4) * INR j + sin (PI / 4) * INR i) / sin (PI / 4) + 1 / 2) = Z.of_nat (i + j)).
    { intros i j. rewrite <- floor_half. f_equal. rewrite CS, plus_INR. field. lra. }
    exists out. split; [exact E|]. split; [rewrite L, PE; lia|]. intros n. rewrite N. apply sumn_ext. intros i I. apply sumn_ext. intros j J. rewrite PE.
    destruct (Z.eq_dec _ _), (Nat.eq_dec _ _); auto; lia. }
  destruct (ANTI m IM) as (anti & E & L & N). destruct (ANTI _ (image_map_rev _ _ _ IM)) as (diag & E' & L' & N').
  exists anti, diag. split; [exact E|]. split.
  { replace (3 * (PI / 4)) with (PI - PI / 4) by field. rewrite (proj1 (proj2 (C34_angle_symmetry r c m (PI / 4) 1 None IM R0 C0))). exact E'. }
  split; [exact L|]. split; [exact L'|]. split; [exact N|]. intros n. rewrite N'. apply sumn_ext. intros i I. rewrite (sumn_rev c). apply sumn_ext. intros j J.
  rewrite (map_nth (@rev R) m []). destruct IM as [LM W]. assert (LR : length (nth i m []) = c) by (apply W, nth_In; lia). rewrite rev_nth by lia. rewrite LR.
  replace (c - S (c - 1 - j))%nat with j by lia. destruct (Nat.eq_dec _ _), (Nat.eq_dec _ _); auto; lia.
Qed.
(** the example of the documentation *)
Example C34_diagonals_example : let m := [[0; 1; 2]; [3; 4; 5]; [6; 7; 8]] in image 3 3 m /\
  angle_sum m (PI / 4) 1 None = Some [0; 4; 12; 12; 8] /\ angle_sum m (3 * (PI / 4)) 1 None = Some [2; 6; 12; 10; 6] /\
  angle_sum m PI 1 None = Some [15; 12; 9].
Proof.
  intros m. assert (IM : image 3 3 m) by (split; [reflexivity|]; intros row [<-|[<-|[<-|[]]]]; reflexivity). split; [exact IM|].
  destruct (C34_angle_diagonals 3 3 m IM) as (a & d & EA & ED & LA & LD & NA & ND); try lia. rewrite EA, ED.
  rewrite (proj1 (C34_angle_reversed 3 3 m 1 IM ltac:(lia) ltac:(lia) Rlt_0_1)). split; [|split]; f_equal.
  - apply nth_eq; [exact LA|]. intros n H. cbn in H. rewrite NA. do 5 (destruct n as [|n]; [cbn; ring|]). lia.
  - apply nth_eq; [exact LD|]. intros n H. cbn in H. rewrite ND. do 5 (destruct n as [|n]; [cbn; ring|]). lia.
  - cbn. repeat apply (f_equal2 (@cons R)); try ring. reflexivity.
Qed.
