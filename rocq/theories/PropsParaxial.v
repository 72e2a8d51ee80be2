(** Properties C17, C18: paraxial matrices. *)
From Coq Require Import Reals List Lra Lia Psatz.
From Verif Require Import Base Vec RotModel PlacementModel PlacementProofs ElementModel ParaxialModel ParaxialProofs.
Import ListNotations.
Open Scope R_scope.

(** * C17 *)
(** Lagrange invariant of two paraxial rays (heights, index times slopes) summed
    over both transverse axes *)
Definition lagrange2 (a b : v4) : R :=
  (w0 a * w2 b - w2 a * w0 b) + (w1 a * w3 b - w3 a * w1 b).
Definition conserves (m : m4) : Prop := forall a b, lagrange2 (mv4 m a) (mv4 m b) = lagrange2 a b.
Lemma conserves_symplectic m : conserves m <-> symplectic m.
Proof. reflexivity. Qed.

(** azimuth of the tilt, third Euler angle *)
Definition azimuth (e : element) : R := match e_kind e with Plain => 0 | Sph _ _ => vz (p_angles (e_place e)) end.

(** an element conserves the invariant exactly when its azimuth is a multiple of 90
    degrees (tilt by the first angle, mirrors, refraction, aspheric vertex
    curvature and any distance are all fine) *)
Theorem C17_element_symplectic e n0 l n m : paraxial_matrix e n0 l = (n, Some m) ->
  (conserves m <-> sin (azimuth e) * cos (azimuth e) = 0).
Proof.
  unfold paraxial_matrix, azimuth. destruct (e_kind e) as [|mt s].
  - intros E. injection E as _ E. split; [intros _; rewrite sin_0; ring|intros _].
    apply transfer_symplectic in E. exact E.
  - intros E. injection E as _ E.
    destruct (transfer_matrix _ _) as [md|] eqn:D; [|discriminate]. cbn [obind] in E.
    destruct (vertex_curvature s) as [c|]; [|discriminate]. cbn [obind] in E.
    destruct (refraction_matrix _ _ _ _ _) as [mr|] eqn:RM; [|discriminate]. cbn [obind] in E.
    injection E as <-. apply azimuth_conj_symplectic.
    apply symplectic_mm; [eapply refraction_symplectic; eauto|eapply transfer_symplectic; eauto].
Qed.

Definition aligned (e : element) : Prop := sin (azimuth e) * cos (azimuth e) = 0.

(** any two rays keep their Lagrange invariant at every element of a system *)
Theorem C17_lagrange_invariant es : forall a b n l j a' b' na nb, Forall aligned es ->
  nth_error (sys_paraxial es (Some a) n l) j = Some (Some a', na) ->
  nth_error (sys_paraxial es (Some b) n l) j = Some (Some b', nb) ->
  na = nb /\ lagrange2 a' b' = lagrange2 a b.
Proof.
  assert (NONE : forall es n l j v k, nth_error (sys_paraxial es None n l) j = Some (Some v, k) -> False).
  { intros es'. induction es' as [|e es' IH]; intros n l j v k; [destruct j; discriminate|].
    cbn [sys_paraxial]. unfold propagate_paraxial. destruct (paraxial_matrix e n l) as [n' m].
    destruct j as [|j]; cbn [nth_error].
    - destruct m; discriminate.
    - destruct m; cbn [obind]; apply IH. }
  induction es as [|e es IH]; intros a b n l j a' b' na nb F; [destruct j; discriminate|].
  inversion F as [|? ? F0 FS]; subst.
  cbn [sys_paraxial]. unfold propagate_paraxial. destruct (paraxial_matrix e n l) as [n' m] eqn:P.
  destruct m as [m|]; cbn [obind].
  2:{ destruct j as [|j]; cbn [nth_error]; [discriminate|]. intros H. exfalso. eapply NONE; eauto. }
  pose proof (proj2 (C17_element_symplectic e n l n' m P) F0) as S.
  destruct j as [|j]; cbn [nth_error].
  - intros A B. injection A as <- <-. injection B as <- <-. split; [auto|apply S].
  - intros A B. destruct (IH _ _ _ _ _ _ _ _ _ FS A B) as (E1 & E2). split; [auto|].
    rewrite E2. apply S.
Qed.

Theorem C17_system_symplectic es l a b n m : Forall aligned es ->
  sys_matrix es l a b = (n, Some m) -> conserves m.
Proof.
  intros F. unfold sys_matrix, paraxial_matrices.
  assert (FS : Forall aligned (slice es a b)).
  { unfold slice. destruct b as [b|]; apply Forall_forall; intros x I; rewrite Forall_forall in F; apply F.
    - apply (In_nth_error) in I. destruct I as (i & I).
      rewrite <- (firstn_skipn b es). apply in_or_app. left.
      rewrite <- (firstn_skipn a (firstn b es)). apply in_or_app. right. eapply nth_error_In; eauto.
    - rewrite <- (firstn_skipn a es). apply in_or_app. right. auto. }
  match goal with |- context [matrices _ ?n0 l] => generalize n0 end. intros n0.
  revert FS. generalize (slice es a b). clear F es.
  intros xs FS.
  assert (G : forall xs n0 k m0 n m, Forall aligned xs -> symplectic m0 ->
    mfold (k, Some m0) (matrices xs n0 l) = (n, Some m) -> symplectic m).
  { clear. induction xs as [|e xs IH]; intros n0 k m0 n m F S.
    - intros E. injection E as <- <-. auto.
    - inversion F as [|? ? F0 FS]; subst. cbn [matrices].
      destruct (paraxial_matrix e n0 l) as [n1 [m1|]] eqn:P; unfold mfold; cbn [fold_left obind].
      + apply IH; auto. apply symplectic_mm; auto.
        apply (proj2 (C17_element_symplectic e n0 l n1 m1 P)). exact F0.
      + intros E. exfalso. apply (f_equal snd) in E.
        change (snd (mfold (n1, None) (matrices xs n1 l)) = Some m) in E.
        rewrite mfold_acc in E. discriminate. }
  apply (G xs n0 1 eye4 n m FS symplectic_eye).
Qed.

(** refuted for other azimuths: the rotation block is not orthogonal.  Even a plane
    dummy surface (no material, zero distance) then destroys the invariant *)
Theorem C17_azimuth_refuted : exists e n0 l n m,
  paraxial_matrix e n0 l = (n, Some m) /\ e_kind e = Sph None (Surf 0 0 None false) /\
  p_distance (e_place e) = 0 /\ ~ conserves m.
Proof.
  destruct (init_spec 0 ez (V 0 0 (PI / 4)) None) as (p & E & _).
  assert (P : p_distance p = 0 /\ p_angles p = V 0 0 (PI / 4)).
  { unfold init in E. destruct (update_spec 0 ez (V 0 0 (PI/4))) as (q & U & _ & _ & A & D & _).
    rewrite U in E. cbn [obind] in E. injection E as <-. rewrite Rabs_R0 in D. auto. }
  destruct P as [PD PA].
  set (e := El p None (Sph None (Surf 0 0 None false))).
  assert (M : exists m, paraxial_matrix e 1 0 = (1, Some m)).
  { unfold paraxial_matrix, e, transfer_matrix, vertex_curvature, refraction_matrix, index_after.
    cbn [e_place e_kind s_asph s_c]. rewrite fdiv_some by lra. cbn [obind]. eauto. }
  destruct M as (m & M). exists e, 1, 0, 1, m.
  split; [auto|]. split; [reflexivity|]. split; [exact PD|].
  rewrite (C17_element_symplectic _ _ _ _ _ M). unfold azimuth, e. cbn [e_kind e_place]. rewrite PA. cbn [vz].
  rewrite sin_PI4, cos_PI4. 
  assert (S : 0 < / sqrt 2) by (apply Rinv_0_lt_compat, sqrt_lt_R0; lra). unfold Rdiv. nra.
Qed.

(** tilted refracting surface meeting the hypotheses *)
Example C17_example : exists p m, init 3 ez (V (1/2) 0 0) None = Some p /\
  let e := El p None (Sph (Some (Material (fun _ => 3/2) false true)) (Surf (1/50) 0 None false)) in
  aligned e /\ paraxial_matrix e 1 0 = (3/2, Some m).
Proof.
  destruct (init_spec 3 ez (V (1/2) 0 0) None) as (p & E & _). exists p.
  assert (P : p_angles p = V (1/2) 0 0).
  { unfold init in E. destruct (update_spec 3 ez (V (1/2) 0 0)) as (q & U & _ & _ & A & D & _).
    rewrite U in E. cbn [obind] in E. injection E as <-. auto. }
  assert (C : 0 < cos (1/2)).
  { apply cos_gt_0; [|]; pose proof PI_RGT_0; pose proof PI2_1; lra. }
  assert (W : 0 < (3 / 2 / 1) ^ 2 + cos (1 / 2) ^ 2 - 1).
  { assert (0 <= cos (1/2) ^ 2) by apply pow2_ge_0. lra. }
  assert (P3 : 0 < sqrt ((3 / 2 / 1) ^ 2 + cos (1 / 2) ^ 2 - 1)) by (apply sqrt_lt_R0; auto).
  eexists. split; [auto|]. cbv zeta. split.
  - unfold aligned, azimuth. cbn [e_kind e_place]. rewrite P. cbn [vz]. rewrite sin_0. ring.
  - unfold paraxial_matrix, transfer_matrix, vertex_curvature, refraction_matrix, index_after.
    cbn [e_place e_kind s_asph s_c m_mirror m_index]. rewrite P. cbn [vx vz].
    rewrite fdiv_some by lra. cbn [obind]. rewrite fdiv_some by lra. cbn [obind].
    rewrite fsqrt_some by lra. cbn [obind].
    rewrite fdiv_some by nra. cbn [obind]. rewrite fdiv_some by nra. cbn [obind].
    rewrite fdiv_some; [cbn [obind]; reflexivity|].
    apply Rgt_not_eq. apply Rdiv_lt_0_compat; nra.
Qed.

(** * C18 *)
Theorem C18_compose es l a b c : (1 <= a <= b)%nat -> (b <= c)%nat ->
  snd (sys_matrix es l a (Some c)) =
    (do m1 <- snd (sys_matrix es l a (Some b));
     do m2 <- snd (sys_matrix es l b (Some c)); Some (mm4 m2 m1)) /\
  ((b < c)%nat -> (b < length es)%nat -> fst (sys_matrix es l a (Some c)) = fst (sys_matrix es l b (Some c))).
Proof.
  intros H1 H2. rewrite !sys_matrix_mfold. unfold paraxial_matrices.
  destruct a as [|a]; [lia|]. destruct b as [|b]; [lia|].
  rewrite !refractive_index_after.
  rewrite (slice_split es (S a) (S b) c) by lia.
  rewrite matrices_app, after_split by lia. rewrite mfold_app.
  set (A := matrices (slice es (S a) (Some (S b))) _ l).
  set (B := matrices (slice es (S b) (Some c)) _ l).
  destruct (mfold (1, Some eye4) A) as [n m] eqn:E. cbn [snd]. split.
  - rewrite mfold_acc. destruct m as [m|]; cbn [obind]; [|reflexivity].
    rewrite (mfold_acc B n (Some eye4)), (mfold_acc B 1 (Some eye4)).
    cbn [obind]. 
    assert (X : forall n n', snd (mfold (n, Some eye4) B) = snd (mfold (n', Some eye4) B)).
    { intros n1 n2. destruct B as [|[n0 m0] B']; reflexivity. }
    rewrite (X n 1). reflexivity.
  - intros L L2. apply mfold_fst. unfold B. 
    destruct (slice es (S b) (Some c)) as [|e xs] eqn:S.
    + exfalso. unfold slice in S. apply (f_equal (@length _)) in S.
      rewrite skipn_length, firstn_length in S. cbn [length] in S. lia.
    + cbn [matrices]. destruct (paraxial_matrix e _ l). discriminate.
Qed.

(** index looked up before the split = index carried by the trace *)
Lemma matrices_index xs : forall n l j x, nth_error (matrices xs n l) j = Some x -> fst x = after (firstn (S j) xs) n l.
Proof.
  induction xs as [|e xs IH]; intros n l j x; [destruct j; discriminate|].
  cbn [matrices]. destruct (paraxial_matrix e n l) as [n' m] eqn:P.
  pose proof (paraxial_fst e n l) as F. rewrite P in F. cbn in F. subst n'.
  destruct j as [|j]; cbn [nth_error].
  - intros E. injection E as <-. reflexivity.
  - intros E. rewrite (IH _ _ _ _ E). reflexivity.
Qed.

Theorem C18_index es l a j n m : (1 <= a)%nat ->
  nth_error (paraxial_matrices es l a None) j = Some (n, m) -> n = refractive_index es l (a + j).
Proof.
  intros A. unfold paraxial_matrices. destruct a as [|a]; [lia|]. rewrite !refractive_index_after.
  intros E. apply matrices_index in E. cbn [fst] in E. rewrite E. unfold slice.
  rewrite <- (after_split es (S a) (S (S a + j)) l) by lia. f_equal. unfold slice.
  rewrite firstn_skipn_comm. do 2 f_equal. lia.
Qed.

(** tracing element by element gives the ray the matrix product gives *)
Lemma sys_paraxial_nth xs : forall yu n l j x, nth_error (sys_paraxial xs yu n l) j = Some x ->
  x = (do m <- snd (mfold (n, Some eye4) (matrices (firstn (S j) xs) n l)); do yu <- yu; Some (mv4 m yu),
       after (firstn (S j) xs) n l).
Proof.
  induction xs as [|e xs IH]; intros yu n l j x; [destruct j; discriminate|].
  cbn [sys_paraxial]. unfold propagate_paraxial. destruct (paraxial_matrix e n l) as [n' m] eqn:P.
  pose proof (paraxial_fst e n l) as F. rewrite P in F. cbn in F. subst n'.
  destruct j as [|j]; cbn [nth_error].
  - intros E. injection E as <-. cbn [firstn matrices after fold_left]. rewrite P. unfold mfold. cbn [fold_left snd obind].
    destruct m as [m|]; cbn [obind]; [|reflexivity]. rewrite mm4_eye_r. reflexivity.
  - intros E. rewrite (IH _ _ _ _ _ E). clear E IH. 
    change (firstn (S (S j)) (e :: xs)) with (e :: firstn (S j) xs). 
    set (ys := firstn (S j) xs). cbn [matrices]. rewrite P. cbn [after fold_left]. f_equal.
    change (mfold (n, Some eye4) ((index_after e n l, m) :: matrices ys (index_after e n l) l))
      with (mfold (index_after e n l, do m0 <- Some eye4; do mi <- m; Some (mm4 mi m0)) (matrices ys (index_after e n l) l)).
    rewrite (mfold_acc _ _ (do m0 <- Some eye4; _)). cbn [obind].
    destruct m as [m|]; cbn [obind].
    2:{ destruct (snd _); reflexivity. }
    rewrite mm4_eye_r. destruct (snd (mfold _ _)) as [m'|]; cbn [obind]; [|reflexivity].
    destruct yu as [yu|]; cbn [obind]; [|reflexivity]. rewrite mv4_mm4. reflexivity.
Qed.

Theorem C18_ray_is_matrix es l a j yu x : (1 <= a)%nat ->
  nth_error (sys_paraxial (slice es a None) (Some yu) (refractive_index es l (a - 1)) l) j = Some x ->
  fst x = (do m <- snd (sys_matrix es l a (Some (a + S j)%nat)); Some (mv4 m yu)) /\
  snd x = refractive_index es l (a + j).
Proof.
  intros A E. apply sys_paraxial_nth in E. subst x. cbn [fst snd]. destruct a as [|a]; [lia|].
  replace (S a - 1)%nat with a by lia. unfold slice. 
  assert (S1 : firstn (S j) (skipn (S a) es) = slice es (S a) (Some (S a + S j)%nat)).
  { unfold slice. apply firstn_skipn_comm. }
  rewrite S1. split.
  - rewrite sys_matrix_mfold. unfold paraxial_matrices. cbn [obind].
    assert (X : forall n n' B, snd (mfold (n, Some eye4) B) = snd (mfold (n', Some eye4) B)).
    { intros n1 n2 B. destruct B as [|[n0 m0] B']; reflexivity. }
    rewrite (X _ 1). reflexivity.
  - rewrite !refractive_index_after, after_split by lia. f_equal. f_equal. lia.
Qed.

(** refuted for ranges starting at element 0: the index lookup before element 0
    wraps around to the last element *)
Lemma axis_el d : 0 <= d -> exists p, init d ez v0 None = Some p /\ p_distance p = d.
Proof.
  intros D. destruct (init_spec d ez v0 None) as (p & E & _). exists p. split; [auto|].
  unfold init in E. destruct (update_spec d ez v0) as (q & U & _ & _ & _ & DD & _).
  rewrite U in E. cbn [obind] in E. injection E as <-. rewrite DD. apply Rabs_pos_eq. auto.
Qed.
Definition tr (t : R) : m4 := M4 (V4 1 0 t 0) (V4 0 1 0 t) (V4 0 0 1 0) (V4 0 0 0 1).
Lemma mm_tr a b : mm4 (tr a) (tr b) = tr (a + b).
Proof. unfold tr. m4_ring. Qed.
Lemma tr_inj a b : tr a = tr b -> a = b.
Proof. intros E. injection E. auto. Qed.
Theorem C18_start_zero_refuted : exists es l m m1 m2,
  snd (sys_matrix es l 0 (Some 2%nat)) = Some m /\ snd (sys_matrix es l 0 (Some 1%nat)) = Some m1 /\
  snd (sys_matrix es l 1 (Some 2%nat)) = Some m2 /\ m <> mm4 m2 m1.
Proof.
  destruct (axis_el 1) as (p & _ & PD); [lra|].
  set (gl := El p None (Sph (Some (Material (fun _ => 2) false true)) (Surf 0 0 None false))).
  exists [El p None Plain; El p None Plain; gl], 0.
  assert (T : forall n, n <> 0 -> transfer_matrix (p_distance p) n = Some (M4 (V4 1 0 (1/n) 0) (V4 0 1 0 (1/n)) (V4 0 0 1 0) (V4 0 0 0 1))).
  { intros n N. unfold transfer_matrix. rewrite PD, fdiv_some by auto. reflexivity. }
  unfold sys_matrix, paraxial_matrices, slice, refractive_index_last, refractive_index.
  cbn [firstn skipn rev app first_index gl e_kind m_index matrices].
  unfold paraxial_matrix. cbn [e_kind e_place index_after].
  rewrite (T 2), (T 1) by lra. cbn [fold_left snd obind].
  eexists; eexists; eexists. split; [reflexivity|]. split; [reflexivity|]. split; [reflexivity|].
  intros E.
  change (mm4 (tr (1/2)) (mm4 (tr (1/2)) eye4) = mm4 (mm4 (tr (1/1)) eye4) (mm4 (tr (1/2)) eye4)) in E.
  rewrite !mm4_eye_r, !mm_tr in E. apply tr_inj in E. lra.
Qed.

Example C18_example : exists p, init 2 ez v0 None = Some p /\
  let es := [El p None Plain; El p None (Sph (Some (Material (fun _ => 3/2) false true)) (Surf (1/50) 0 None false)); El p None Plain; El p None Plain] in
  length (paraxial_matrices es 0 1 None) = 3%nat /\ refractive_index es 0 2 = 3/2 /\ refractive_index es 0 0 = 1.
Proof.
  destruct (axis_el 2) as (p & E & _); [lra|]. exists p. split; [auto|]. cbv zeta.
  split; [reflexivity|]. split; reflexivity.
Qed.

Print Assumptions C17_element_symplectic.
Print Assumptions C17_lagrange_invariant.
Print Assumptions C17_system_symplectic.
Print Assumptions C17_azimuth_refuted.
Print Assumptions C18_compose.
Print Assumptions C18_index.
Print Assumptions C18_ray_is_matrix.
Print Assumptions C18_start_zero_refuted.
