(** Properties C23, C24, C25, C49: paraxial pupils, solves, cardinal points. *)
From Coq Require Import Reals List Lra Lia Psatz.
From Verif Require Import Base Vec RotModel RotProofs PlacementModel PlacementProofs ElementModel PropsRescale
  ParaxialModel ParaxialProofs PropsParaxial LimitProofs PropsLimit ReverseModel PropsReverse PropsInverse
  PupilModel PropsPupil ParaxTraceModel.
Import ListNotations.
Open Scope R_scope.

(** ** systems whose x and y sections are independent *)
(** the tilt, if any, is about the x axis *)
Definition upright (e : element) : Prop := match e_kind e with Plain => True | Sph _ _ => vz (p_angles (e_place e)) = 0 end.
Definition decoupled (m : m4) : Prop :=
  w1 (q0 m) = 0 /\ w3 (q0 m) = 0 /\ w0 (q1 m) = 0 /\ w2 (q1 m) = 0 /\
  w1 (q2 m) = 0 /\ w3 (q2 m) = 0 /\ w0 (q3 m) = 0 /\ w2 (q3 m) = 0.
Lemma decoupled_eye : decoupled eye4.
Proof. unfold decoupled; cbn; repeat split; reflexivity. Qed.
Lemma decoupled_mm a b : decoupled a -> decoupled b -> decoupled (mm4 a b).
Proof.
  destruct a as [[a00 a01 a02 a03] [a10 a11 a12 a13] [a20 a21 a22 a23] [a30 a31 a32 a33]].
  destruct b as [[b00 b01 b02 b03] [b10 b11 b12 b13] [b20 b21 b22 b23] [b30 b31 b32 b33]].
  unfold decoupled, mm4, mv4, mT4, dot4. cbn.
  intros (-> & -> & -> & -> & -> & -> & -> & ->) (-> & -> & -> & -> & -> & -> & -> & ->).
  repeat split; ring.
Qed.
Lemma block_mm axis a b : decoupled a -> decoupled b ->
  block axis (mm4 a b) = let '(a00, a01, a10, a11) := block axis a in let '(b00, b01, b10, b11) := block axis b in
    (a00 * b00 + a01 * b10, a00 * b01 + a01 * b11, a10 * b00 + a11 * b10, a10 * b01 + a11 * b11).
Proof.
  destruct a as [[a00 a01 a02 a03] [a10 a11 a12 a13] [a20 a21 a22 a23] [a30 a31 a32 a33]].
  destruct b as [[b00 b01 b02 b03] [b10 b11 b12 b13] [b20 b21 b22 b23] [b30 b31 b32 b33]].
  unfold decoupled, block, mm4, mv4, mT4, dot4. cbn.
  intros (-> & -> & -> & -> & -> & -> & -> & ->) (-> & -> & -> & -> & -> & -> & -> & ->).
  destruct axis; cbn; (f_equal; [f_equal; [f_equal|]|]); ring.
Qed.
Lemma block_mv axis m y u : decoupled m ->
  let '(a, b, c, d) := block axis m in
  row_y axis (mv4 m (V4 y y u u)) = a * y + b * u /\ row_u axis (mv4 m (V4 y y u u)) = c * y + d * u.
Proof.
  intros (A & B & C & D & E & F & G & H). unfold block, row_y, row_u, mv4, dot4.
  destruct axis; cbn; rewrite ?A, ?B, ?C, ?D, ?E, ?F, ?G, ?H; split; ring.
Qed.
Lemma transfer_decoupled d n m : transfer_matrix d n = Some m -> decoupled m.
Proof.
  unfold transfer_matrix. destruct (fdiv d n); [|discriminate]. cbn [obind]. intros E; injection E as <-.
  unfold decoupled; cbn; repeat split; reflexivity.
Qed.
Lemma refraction_decoupled mt c ct n0 n m : refraction_matrix mt c ct n0 n = Some m -> decoupled m.
Proof.
  unfold refraction_matrix. destruct mt as [mt|].
  2:{ intros E; injection E as <-. apply decoupled_eye. }
  destruct (m_mirror mt).
  - destruct (fdiv _ _); [|discriminate]. cbn [obind]. intros E; injection E as <-. unfold decoupled; cbn; repeat split; reflexivity.
  - destruct (fdiv n n0); [|discriminate]. cbn [obind]. destruct (fsqrt _); [|discriminate]. cbn [obind].
    destruct (fdiv r0 _); [|discriminate]. cbn [obind]. destruct (fdiv (r * _) _); [|discriminate]. cbn [obind].
    destruct (fdiv 1 _); [|discriminate]. cbn [obind]. intros E; injection E as <-.
    unfold decoupled; cbn; repeat split; reflexivity.
Qed.
Lemma flip_decoupled : decoupled flip4.
Proof. unfold flip4, azimuth_matrix, decoupled. cbn. rewrite sin_0. repeat split; ring. Qed.
Lemma upright_decoupled e n0 l n m : upright e -> paraxial_matrix e n0 l = (n, Some m) -> decoupled m.
Proof.
  unfold upright, paraxial_matrix. destruct (e_kind e) as [|mt s].
  - intros _ E. injection E as _ E. eapply transfer_decoupled; eauto.
  - intros U E. injection E as _ E. destruct (transfer_matrix _ _) as [md|] eqn:D; [|discriminate]. cbn [obind] in E.
    destruct (vertex_curvature s); [|discriminate]. cbn [obind] in E.
    destruct (refraction_matrix _ _ _ _ _) as [mr|] eqn:RM; [|discriminate]. cbn [obind] in E.
    rewrite U in E. fold flip4 in E. rewrite flip4_T in E. injection E as <-.
    apply decoupled_mm; [apply flip_decoupled|]. apply decoupled_mm; [|apply flip_decoupled].
    apply decoupled_mm; [eapply refraction_decoupled; eauto|eapply transfer_decoupled; eauto].
Qed.

(** ** the traced rows are what the matrix blocks give *)
Definition row_is (axis : bool) (m : m4) (y u : R * R) (r : prow) : Prop :=
  let '(a, b, c, d) := block axis m in
  ry r = (a * fst y + b * fst u, a * snd y + b * snd u) /\ ru r = (c * fst y + d * fst u, c * snd y + d * snd u).

Lemma ptrace_from_nth axis l es : forall m c n rs j r, ptrace_from axis l es m c n = Some rs -> nth_error rs j = Some r ->
  exists M, snd (mfold (n, Some eye4) (matrices (firstn (S j) es) n l)) = Some M /\
    (Forall upright es -> decoupled M) /\
    ry r = (row_y axis (mv4 M m), row_y axis (mv4 M c)) /\ ru r = (row_u axis (mv4 M m), row_u axis (mv4 M c)) /\
    rn r = after (firstn (S j) es) n l.
Proof.
  induction es as [|e es IH]; intros m c n rs j r; cbn [ptrace_from].
  - intros E; injection E as <-. destruct j; discriminate.
  - unfold propagate_paraxial. destruct (paraxial_matrix e n l) as [n1 M1] eqn:P.
    pose proof (paraxial_fst e n l) as F. rewrite P in F. cbn in F. subst n1.
    destruct M1 as [M1|]; [|discriminate]. cbn [obind].
    destruct (ptrace_from axis l es (mv4 M1 m) (mv4 M1 c) (index_after e n l)) as [rs'|] eqn:R; [|discriminate].
    cbn [obind]. intros E; injection E as <-. destruct j as [|j]; cbn [nth_error].
    + intros E; injection E as <-. exists M1. cbn [firstn matrices]. rewrite P. unfold mfold. cbn [fold_left snd obind ry ru rn].
      rewrite mm4_eye_r. split; [reflexivity|]. split.
      { intros U. inversion U; subst. eapply upright_decoupled; eauto. }
      split; [reflexivity|]. split; reflexivity.
    + intros E. destruct (IH _ _ _ _ _ _ R E) as (M & A & B & C & D & G).
      exists (mm4 M M1). change (firstn (S (S j)) (e :: es)) with (e :: firstn (S j) es).
      cbn [matrices]. rewrite P.
      change (snd (mfold (index_after e n l, do m0 <- Some eye4; do mi <- Some M1; Some (mm4 mi m0)) (matrices (firstn (S j) es) (index_after e n l) l)) = Some (mm4 M M1) /\
        (Forall upright (e :: es) -> decoupled (mm4 M M1)) /\
        ry r = (row_y axis (mv4 (mm4 M M1) m), row_y axis (mv4 (mm4 M M1) c)) /\
        ru r = (row_u axis (mv4 (mm4 M M1) m), row_u axis (mv4 (mm4 M M1) c)) /\ rn r = after (e :: firstn (S j) es) n l).
      rewrite mfold_acc, A. cbn [obind]. rewrite mm4_eye_r, !mv4_mm4. split; [reflexivity|]. split.
      { intros U. inversion U; subst. apply decoupled_mm; [auto|]. eapply upright_decoupled; eauto. }
      split; [auto|]. split; [auto|exact G].
Qed.

(** row j >= 1 of a full trace launched in the index after element 0 *)
Lemma ptrace_nth axis l es y u rs j r : Forall upright es -> ptrace axis l es y u (refractive_index es l 0) = Some rs ->
  nth_error rs (S j) = Some r ->
  exists M, snd (sys_matrix es l 1 (Some (S (S j)))) = Some M /\ decoupled M /\ row_is axis M y u r /\
    rn r = refractive_index es l (S j).
Proof.
  intros U. destruct es as [|e es]; [discriminate|]. cbn [ptrace].
  destruct (ptrace_from _ _ es _ _ _) as [rs'|] eqn:P; [|discriminate]. cbn [obind]. intros E; injection E as <-.
  cbn [nth_error]. intros N. destruct (ptrace_from_nth _ _ _ _ _ _ _ _ _ P N) as (M & A & B & C & D & G).
  inversion U; subst. exists M. split.
  { rewrite sys_matrix_mfold. unfold paraxial_matrices, slice. cbn [firstn skipn].
    assert (X : forall n n' B, snd (mfold (n, Some eye4) B) = snd (mfold (n', Some eye4) B)).
    { intros n1 n2 B'. destruct B' as [|[n0 m0] B'']; reflexivity. }
    rewrite (X _ (refractive_index (e :: es) l 0)). exact A. }
  split; [auto|]. split.
  - unfold row_is. pose proof (block_mv axis M (fst y) (fst u) (B H2)) as K1. pose proof (block_mv axis M (snd y) (snd u) (B H2)) as K2.
    destruct (block axis M) as [[[a b] c] d]. destruct K1 as [K1 K1']. destruct K2 as [K2 K2'].
    rewrite C, D, K1, K1', K2, K2'. auto.
  - rewrite G. rewrite !refractive_index_after. reflexivity.
Qed.

Lemma ptrace_length axis l es y u n rs : ptrace axis l es y u n = Some rs -> length rs = length es.
Proof.
  assert (K : forall xs m c n rs, ptrace_from axis l xs m c n = Some rs -> length rs = length xs).
  { induction xs as [|e xs IH]; intros m c k rs0; cbn [ptrace_from].
    - intros E; injection E as <-. reflexivity.
    - unfold propagate_paraxial. destruct (paraxial_matrix e k l) as [n1 M1]. destruct M1 as [M1|]; [|discriminate].
      cbn [obind]. destruct (ptrace_from axis l xs _ _ n1) eqn:P; [|discriminate]. cbn [obind].
      intros E; injection E as <-. cbn. f_equal. eauto. }
  destruct es as [|e es]; [discriminate|]. cbn [ptrace]. destruct (ptrace_from _ _ _ _ _ _) eqn:P; [|discriminate].
  cbn [obind]. intros E; injection E as <-. cbn. f_equal. eauto.
Qed.
Lemma ptrace_0 axis l es y u n rs : ptrace axis l es y u n = Some rs -> nth_error rs 0 = Some (PRow y u n).
Proof.
  destruct es as [|e es]; [discriminate|]. cbn [ptrace]. destruct (ptrace_from _ _ _ _ _ _); [|discriminate].
  cbn [obind]. intros E; injection E as <-. reflexivity.
Qed.

(** * C23 *)
Lemma set_radius_inv p r p' : 0 < pu_index p -> set_radius p r = Some p' ->
  pupil_radius p' = Some r /\ pu_distance p' = pu_distance p /\
  (forall t, pupil_slope p' = Some t -> pu_distance p <> 0 /\ t = r / pu_distance p).
Proof.
  intros N E. destruct (Req_EM_T (pu_distance p) 0) as [Z|Z].
  - unfold set_radius in E. destruct (pu_kind p) eqn:K.
    + rewrite Z, fdiv_zero in E. discriminate.
    + rewrite Z, fdiv_zero in E. discriminate.
    + injection E as <-. unfold pupil_radius, pupil_slope. cbn. rewrite K. split; [auto|]. split; [auto|].
      rewrite Z, fdiv_zero. discriminate.
    + rewrite Z, fdiv_zero in E. discriminate.
  - assert (F : pu_kind p = FnoPupil -> r <> 0).
    { intros K ->. unfold set_radius in E. rewrite K, fdiv_some in E by auto. cbn [obind] in E.
      replace (sinarctan (0 / pu_distance p)) with 0 in E.
      - rewrite Rmult_0_r, fdiv_zero in E. discriminate.
      - unfold Rdiv. rewrite Rmult_0_l. unfold sinarctan. ring. }
    destruct (C26_set_radius p r N Z F) as (q & Q & R & S & _ & D & _). rewrite E in Q. injection Q as <-.
    split; [auto|]. split; [auto|]. intros t T. rewrite S in T. injection T as <-. auto.
Qed.
Lemma conj_update_inv c rad d r c' : 0 < pu_index (cj_pupil c) ->
  pu_update_distance (cj_pupil c) = true -> pu_update_radius (cj_pupil c) = true -> conj_update c rad d r = Some c' ->
  cj_finite c' = cj_finite c /\ cj_projection c' = cj_projection c /\ pu_distance (cj_pupil c') = d /\
  pupil_radius (cj_pupil c') = Some r /\
  (forall t, pupil_slope (cj_pupil c') = Some t -> d <> 0 /\ t = r / d).
Proof.
  intros N UD UR. unfold conj_update, pupil_update. rewrite UD. cbn [pu_update_radius with_pdist]. rewrite UR.
  destruct (set_radius (with_pdist (cj_pupil c) d) r) as [p'|] eqn:S; [|discriminate]. cbn [obind].
  destruct (set_radius_inv (with_pdist (cj_pupil c) d) r p' N S) as (A & B & C). cbn in B, C.
  cbn [cj_update_radius with_pupil]. destruct (cj_update_radius c).
  - destruct rad as [rad|]; [|discriminate]. cbn [obind cj_finite with_pupil]. intros E; injection E as <-.
    destruct (cj_finite c) eqn:F; cbn; rewrite F; auto.
  - intros E; injection E as <-. cbn. auto.
Qed.

(** After the pupil update of the object (pupil distance and radius enabled), the rays
    launched by [rays] and traced arrive at the stop with the marginal ray at the
    stop radius and the chief ray at height 0.  Holds for every pupil class, for
    finite and for rectilinear infinite objects. *)
Theorem C23_stop axis l es stop o o' y u rs st r row :
  Forall upright es -> (1 <= stop)%nat ->
  0 < pu_index (cj_pupil o) -> pu_update_distance (cj_pupil o) = true -> pu_update_radius (cj_pupil o) = true ->
  (cj_finite o = false -> cj_projection o = Rectilinear) ->
  nth_error es stop = Some st -> e_radius st = Some r ->
  update_object axis l es stop o = Some o' ->
  prays es l o' = Some (y, u) ->
  ptrace axis l es y u (refractive_index es l 0) = Some rs -> nth_error rs stop = Some row ->
  ry row = (r, 0).
Proof.
  intros U ST N UD UR PR NS RS UO RAYS TR NR. destruct stop as [|j]; [lia|].
  destruct (ptrace_nth axis l es y u rs j row U TR NR) as (M & SM & DM & RI & _).
  unfold update_object in UO. rewrite NS in UO. cbn [obind] in UO. rewrite RS in UO. cbn [obind] in UO.
  destruct (nth_error es 0) as [e0|]; [|discriminate]. cbn [obind] in UO. rewrite SM in UO. cbn [obind] in UO.
  unfold row_is in RI. destruct (block axis M) as [[[a b] c] d]. destruct RI as [RY _]. rewrite RY. clear RY.
  set (n0 := refractive_index es l 0) in *.
  destruct (fdiv (b * n0) a) as [D|] eqn:FD; [|discriminate]. cbn [obind] in UO.
  destruct (fdiv r a) as [pr|] eqn:FR; [|discriminate]. cbn [obind] in UO.
  apply fdiv_inv in FD. destruct FD as [A ->]. apply fdiv_inv in FR. destruct FR as [_ ->].
  destruct (conj_update_inv _ _ _ _ _ N UD UR UO) as (FI & PJ & DI & PRD & SL).
  unfold prays in RAYS. destruct (cj_finite o') eqn:FO.
  - destruct (pupil_slope (cj_pupil o')) as [t|] eqn:PS; [|discriminate]. cbn [obind] in RAYS.
    destruct (conj_slope o') as [s|] eqn:CS; [|discriminate]. cbn [obind] in RAYS. injection RAYS as <- <-.
    destruct (SL t eq_refl) as [NZ ->]. unfold conj_slope in CS. rewrite FO, DI in CS. apply fdiv_inv in CS. destruct CS as [_ ->].
    cbn [fst snd]. fold n0.
    assert (BN : b * n0 <> 0). { intros E. apply NZ. rewrite E. unfold Rdiv. ring. }
    assert (b <> 0) by (intros ->; apply BN; ring). assert (n0 <> 0) by (intros E; apply BN; rewrite E; ring).
    f_equal; field; auto.
  - assert (P : cj_projection o' = Rectilinear) by (rewrite PJ; apply PR; congruence).
    unfold wideangle in RAYS. rewrite P in RAYS. cbn [rectilinear negb] in RAYS.
    destruct (ftan (cj_val o')) as [tc|] eqn:T; [|discriminate]. cbn [obind] in RAYS.
    rewrite PRD in RAYS. cbn [obind] in RAYS. unfold conj_slope in RAYS. rewrite FO, T in RAYS. cbn [obind] in RAYS.
    injection RAYS as <- <-. cbn [fst snd]. rewrite DI. fold n0. f_equal; field; auto.
Qed.

Lemma sys_decoupled es l a b m : Forall upright es -> snd (sys_matrix es l a b) = Some m -> decoupled m.
Proof.
  intros F. unfold sys_matrix, paraxial_matrices.
  assert (FS : Forall upright (slice es a b)).
  { unfold slice. destruct b as [b|]; apply Forall_forall; intros x I; rewrite Forall_forall in F; apply F.
    - rewrite <- (firstn_skipn b es). apply in_or_app. left.
      rewrite <- (firstn_skipn a (firstn b es)). apply in_or_app. right. auto.
    - rewrite <- (firstn_skipn a es). apply in_or_app. right. auto. }
  match goal with |- context [matrices _ ?n0 l] => generalize n0 end. intros n0.
  revert FS. generalize (slice es a b). clear F es. intros xs FS.
  assert (G : forall xs n0 k m0 m, Forall upright xs -> decoupled m0 ->
    snd (mfold (k, Some m0) (matrices xs n0 l)) = Some m -> decoupled m).
  { clear. induction xs as [|e xs IH]; intros n0 k m0 m F S.
    - intros E. injection E as <-. auto.
    - inversion F as [|? ? F0 FS]; subst. cbn [matrices].
      destruct (paraxial_matrix e n0 l) as [n1 [m1|]] eqn:P; unfold mfold; cbn [fold_left obind].
      + apply IH; auto. apply decoupled_mm; auto. eapply upright_decoupled; eauto.
      + intros E. exfalso. change (snd (mfold (n1, None) (matrices xs n1 l)) = Some m) in E.
        rewrite mfold_acc in E. discriminate. }
  apply (G xs n0 1 eye4 m FS decoupled_eye).
Qed.
Lemma sys_index es l a b : (1 <= a)%nat -> (a < b)%nat -> (a < length es)%nat ->
  fst (sys_matrix es l a (Some b)) = refractive_index es l (b - 1).
Proof.
  intros A B L. rewrite sys_matrix_mfold. unfold paraxial_matrices. destruct a as [|a]; [lia|]. rewrite !refractive_index_after.
  assert (X : forall xs n0 m n, xs <> [] -> fst (mfold (n0, m) (matrices xs n l)) = after xs n l).
  { clear. induction xs as [|e xs IH]; intros n0 m n NE; [contradiction|].
    cbn [matrices]. destruct (paraxial_matrix e n l) as [n1 m1] eqn:P.
    pose proof (paraxial_fst e n l) as F. rewrite P in F. cbn in F. subst n1.
    destruct xs as [|x xs]; [reflexivity|]. unfold mfold. cbn [fold_left].
    change (after (e :: x :: xs) n l) with (after (x :: xs) (index_after e n l) l). apply IH. discriminate. }
  rewrite X.
  - rewrite after_split by lia. f_equal. f_equal. lia.
  - intros E. apply (f_equal (@length _)) in E. unfold slice in E. rewrite skipn_length, firstn_length in E. cbn [length] in E. lia.
Qed.

(** The image side: the chief ray (through the centre of the stop) leaves the system as if coming from the
    axis point at the stored pupil distance from the last element, and any ray
    through the rim of the stop passes that plane at the stored pupil radius. *)
Theorem C23_exit_pupil axis l es stop o o' y u rs st r row last :
  Forall upright es -> (1 <= stop)%nat -> (S stop < length es)%nat ->
  0 < pu_index (cj_pupil o) -> pu_update_distance (cj_pupil o) = true -> pu_update_radius (cj_pupil o) = true ->
  nth_error es stop = Some st -> e_radius st = Some r ->
  update_image axis l es stop o = Some o' ->
  ptrace axis l es y u (refractive_index es l 0) = Some rs -> nth_error rs stop = Some row -> back rs 1 = Some last ->
  rn last <> 0 ->
  let d := pu_distance (cj_pupil o') in
  (snd (ry row) = 0 -> snd (ry last) + d * (snd (ru last) / rn last) = 0) /\
  (fst (ry row) = r -> pupil_radius (cj_pupil o') = Some (fst (ry last) + d * (fst (ru last) / rn last))).
Proof.
  intros U ST LS N UD UR NS RS UI TR NR BL NZ.
  pose proof (ptrace_length _ _ _ _ _ _ _ TR) as LN.
  unfold back in BL. destruct (Nat.leb_spec 1 (length rs)); [|discriminate]. rewrite LN in BL.
  destruct stop as [|j]; [lia|]. destruct (length es - 1)%nat as [|k'] eqn:K; [lia|].
  assert (KL : length es = S (S k')) by lia.
  destruct (ptrace_nth axis l es y u rs j row U TR NR) as (MA & SA & DA & RA & _).
  destruct (ptrace_nth axis l es y u rs k' last U TR BL) as (MF & SF & DF & RF & NF).
  destruct (C18_compose es l 1 (S (S j)) (S (S k')) ltac:(lia) ltac:(lia)) as [CO _].
  rewrite SA, SF in CO. cbn [obind] in CO.
  assert (NONE : sys_matrix es l (S (S j)) None = sys_matrix es l (S (S j)) (Some (S (S k')))).
  { unfold sys_matrix, paraxial_matrices, slice. rewrite <- KL, firstn_all. reflexivity. }
  unfold update_image in UI. rewrite NS in UI. cbn [obind] in UI. rewrite RS in UI. cbn [obind] in UI.
  rewrite K in UI. destruct (nth_error es (S k')) as [el|]; [|discriminate]. cbn [obind] in UI.
  rewrite NONE in UI.
  pose proof (sys_index es l (S (S j)) (S (S k')) ltac:(lia) ltac:(lia) ltac:(lia)) as NB.
  replace (S (S k') - 1)%nat with (S k') in NB by lia. rewrite <- NF in NB.
  pose proof (sys_decoupled es l (S (S j)) (Some (S (S k')))) as DBG.
  destruct (sys_matrix es l (S (S j)) (Some (S (S k')))) as [nb MB]. cbn [fst snd] in *. subst nb.
  destruct MB as [MB|]; [|discriminate]. cbn [obind] in *. injection CO as ->.
  specialize (DBG MB U eq_refl).
  unfold row_is in RA, RF. rewrite block_mm in RF by auto.
  destruct (block axis MA) as [[[a b] c] d]. destruct (block axis MB) as [[[a' b'] c'] d'].
  destruct RA as [RA _]. destruct RF as [RF RF']. rewrite RA, RF, RF'. cbn [fst snd].
  unfold inv_row0 in UI. destruct (fdiv d' _) as [i1|] eqn:F1; [|discriminate]. cbn [obind] in UI.
  destruct (fdiv (- b') _) as [i2|] eqn:F2; [|discriminate]. cbn [obind] in UI.
  apply fdiv_inv in F1. destruct F1 as [DET ->]. apply fdiv_inv in F2. destruct F2 as [_ ->].
  destruct (fdiv (- b' / _ * rn last) _) as [D|] eqn:FD; [|discriminate]. cbn [obind] in UI.
  destruct (fdiv r _) as [pr|] eqn:FR; [|discriminate]. cbn [obind] in UI.
  apply fdiv_inv in FD. destruct FD as [A ->]. apply fdiv_inv in FR. destruct FR as [_ ->].
  destruct (conj_update_inv _ _ _ _ _ N UD UR UI) as (_ & _ & DI & PRD & _).
  rewrite DI, PRD. assert (d' <> 0) by (intros ->; apply A; unfold Rdiv; ring).
  split.
  - intros Z. apply (Rmult_eq_reg_l d'); [|auto].
    transitivity ((a' * d' - b' * c') * (a * snd y + b * snd u)); [field; auto|rewrite Z; ring].
  - intros <-. f_equal. field. auto.
Qed.

(** ** a demonstration system: object, water surface, stop without material, image *)
Definition demo (p0 p3 : placement) : list element :=
  [El p0 None (Sph (Some vac) flat); El p3 (Some 4) (Sph (Some water) (Surf (1/20) 0 None false));
   El p3 (Some 2) (Sph None flat); El p3 None (Sph None flat)].
Lemma RT_decoupled f t : decoupled (mm4 (Rm f) (Tm t)).
Proof. apply decoupled_mm; unfold decoupled, Rm, Tm; cbn; repeat split; reflexivity. Qed.
Lemma RT_block axis f t : block axis (mm4 (Rm f) (Tm t)) = (1, t, f, 1 + f * t).
Proof. unfold block, mm4, mv4, mT4, dot4, Rm, Tm. destruct axis; cbn; (f_equal; [f_equal; [f_equal|]|]); ring. Qed.
Lemma RT_row axis f t y u : row_y axis (mv4 (mm4 (Rm f) (Tm t)) (V4 y y u u)) = y + t * u /\
  row_u axis (mv4 (mm4 (Rm f) (Tm t)) (V4 y y u u)) = f * y + (1 + f * t) * u.
Proof.
  pose proof (block_mv axis _ y u (RT_decoupled f t)) as K. rewrite RT_block in K. destruct K as [-> ->].
  split; ring.
Qed.
Lemma demo_facts : exists p0 p3, init 0 ez v0 None = Some p0 /\ init 3 ez v0 None = Some p3 /\
  Forall upright (demo p0 p3) /\
  (forall n, 0 < n -> paraxial_matrix (El p3 (Some 4) (Sph (Some water) (Surf (1/20) 0 None false))) n 1 =
     (4/3, Some (mm4 (Rm ((n - 4/3) * (1/20))) (Tm (3/n))))) /\
  (forall n r, 0 < n -> paraxial_matrix (El p3 r (Sph None flat)) n 1 = (n, Some (mm4 (Rm 0) (Tm (3/n))))).
Proof.
  destruct (centred_axis 0) as (p0 & E0 & U0 & D0 & _ & A0); [lra|].
  destruct (centred_axis 3) as (p3 & E3 & U3 & D3 & _ & A3); [lra|].
  exists p0, p3. split; [auto|]. split; [auto|]. split.
  { unfold demo. repeat apply Forall_cons; [..|apply Forall_nil]; unfold upright; cbn; rewrite ?A0, ?A3; reflexivity. }
  split.
  - intros n N. pose proof (prim (El p3 (Some 4) (Sph (Some water) (Surf (1/20) 0 None false)), None) 1 n (Some water) (Surf (1/20) 0 None false) (1/20)) as P.
    eapply eq_trans; [apply P; auto; [split; auto|split; [reflexivity|cbn; lra]]|].
    unfold dist. cbn [fst e_place m_index water]. rewrite D3. reflexivity.
  - intros n r N. pose proof (prim (El p3 r (Sph None flat), None) 1 n None flat 0) as P.
    eapply eq_trans; [apply P; auto; split; auto|].
    unfold dist. cbn [fst e_place]. rewrite D3. reflexivity.
Qed.
Lemma demo_trace p0 p3 axis y u :
  (forall n, 0 < n -> paraxial_matrix (El p3 (Some 4) (Sph (Some water) (Surf (1/20) 0 None false))) n 1 =
     (4/3, Some (mm4 (Rm ((n - 4/3) * (1/20))) (Tm (3/n))))) ->
  (forall n r, 0 < n -> paraxial_matrix (El p3 r (Sph None flat)) n 1 = (n, Some (mm4 (Rm 0) (Tm (3/n))))) ->
  exists rs, ptrace axis 1 (demo p0 p3) y u 1 = Some rs /\ exists M, snd (sys_matrix (demo p0 p3) 1 1 (Some 3%nat)) = Some M /\ block axis M = (77/80, 411/80, -1/60, 57/60).
Proof.
  intros P1 P2. unfold demo. cbn [ptrace ptrace_from]. unfold propagate_paraxial.
  rewrite P1 by lra. cbn [obind]. rewrite !P2 by lra. cbn [obind]. eexists. split; [reflexivity|].
  eexists. split.
  - unfold sys_matrix, paraxial_matrices, slice, refractive_index. cbn [firstn skipn rev app first_index e_kind m_index vac matrices].
    rewrite P1 by lra. rewrite P2 by lra. cbn [fold_left obind snd]. rewrite mm4_eye_r. reflexivity.
  - rewrite block_mm by apply RT_decoupled. rewrite !RT_block. cbv zeta. (f_equal; [f_equal; [f_equal|]|]); field.
Qed.

Example C23_example : exists p0 p3 o o' y u rs row,
  init 0 ez v0 None = Some p0 /\ init 3 ez v0 None = Some p3 /\ Forall upright (demo p0 p3) /\
  o = Conjugate true 5 (Pupil NaPupil (1/10) 1 true true false false 1 Rectilinear) Rectilinear false /\
  update_object true 1 (demo p0 p3) 2 o = Some o' /\
  prays (demo p0 p3) 1 o' = Some (y, u) /\
  ptrace true 1 (demo p0 p3) y u (refractive_index (demo p0 p3) 1 0) = Some rs /\ nth_error rs 2 = Some row /\ ry row = (2, 0).
Proof.
  destruct demo_facts as (p0 & p3 & E0 & E3 & U & P1 & P2). exists p0, p3.
  set (o := Conjugate true 5 (Pupil NaPupil (1/10) 1 true true false false 1 Rectilinear) Rectilinear false).
  destruct (demo_trace p0 p3 true (0, 0) (0, 0) P1 P2) as (_ & _ & M & SM & BM).
  assert (UO : exists o', update_object true 1 (demo p0 p3) 2 o = Some o' /\ cj_finite o' = true /\ pu_distance (cj_pupil o') = 411/77 /\ exists t, pupil_slope (cj_pupil o') = Some t).
  { unfold update_object. cbn [nth_error demo obind e_radius]. fold (demo p0 p3). rewrite SM. cbn [obind]. rewrite BM.
    assert (R0 : refractive_index (demo p0 p3) 1 0 = 1) by reflexivity. rewrite R0.
    rewrite fdiv_some by lra. cbn [obind]. rewrite fdiv_some by lra. cbn [obind].
    unfold conj_update, pupil_update, o, with_pdist.
    cbn [cj_pupil pu_update_distance pu_update_radius pu_kind pu_val pu_distance pu_aim pu_telecentric pu_index pu_projection].
    set (p := Pupil NaPupil (1/10) (411 / 80 * 1 / (77 / 80)) true true false false 1 Rectilinear).
    destruct (C26_set_radius p (2 / (77/80))) as (q & Q & _ & S & _ & D & _).
    - cbn; lra.
    - cbn; lra.
    - discriminate.
    - rewrite Q. cbn [obind]. eexists. split; [reflexivity|]. cbn. split; [reflexivity|]. split; [rewrite D; cbn; lra|]. eauto. }
  destruct UO as (o' & UO & FI & DI & t & PS).
  assert (PR : exists y u, prays (demo p0 p3) 1 o' = Some (y, u)).
  { unfold prays. rewrite FI, PS. cbn [obind]. unfold conj_slope. rewrite FI, DI, fdiv_some by lra. cbn [obind]. eauto. }
  destruct PR as (y & u & PR). destruct (demo_trace p0 p3 true y u P1 P2) as (rs & TR & _).
  assert (R0 : refractive_index (demo p0 p3) 1 0 = 1) by reflexivity.
  assert (NR : exists row, nth_error rs 2 = Some row).
  { destruct (nth_error rs 2) eqn:E; [eauto|]. apply nth_error_None in E. apply ptrace_length in TR. cbn in TR. lia. }
  destruct NR as (row & NR). exists o, o', y, u, rs, row. rewrite R0.
  do 3 (split; [auto|]). split; [reflexivity|]. do 4 (split; [auto|]).
  eapply (C23_stop true 1 (demo p0 p3) 2 o); eauto; try reflexivity; try (cbn; lra || discriminate).
Qed.

(** Refuted for the non-rectilinear (wide angle) infinite objects: [rays] launches the
    chief ray with slope 1 but from the height belonging to the slope tan(angle), so it
    misses the stop centre for every field angle except 45 degrees. *)
Theorem C23_wideangle_refuted : exists es, Forall upright es /\ forall angle, cos angle <> 0 -> tan angle <> 1 ->
  exists o o' y u rs row,
  o = Conjugate false angle (Pupil RadiusPupil 1 1 true true false false 1 Rectilinear) Equisolid false /\
  update_object true 1 es 2 o = Some o' /\ prays es 1 o' = Some (y, u) /\
  ptrace true 1 es y u (refractive_index es 1 0) = Some rs /\ nth_error rs 2 = Some row /\ snd (ry row) <> 0.
Proof.
  destruct demo_facts as (p0 & p3 & E0 & E3 & U & P1 & P2). exists (demo p0 p3). split; [auto|].
  intros angle CA TA. destruct (demo_trace p0 p3 true (0, 0) (0, 0) P1 P2) as (_ & _ & M & SM & BM).
  assert (R0 : refractive_index (demo p0 p3) 1 0 = 1) by reflexivity.
  assert (G : forall y u, exists rs row, ptrace true 1 (demo p0 p3) y u 1 = Some rs /\ nth_error rs 2 = Some row /\ snd (ry row) = 77/80 * snd y + 411/80 * snd u).
  { intros y u. destruct (demo_trace p0 p3 true y u P1 P2) as (rs & TR & _). exists rs.
    destruct (nth_error rs 2) as [row|] eqn:E.
    - exists row. split; [auto|]. split; [auto|]. rewrite <- R0 in TR.
      destruct (ptrace_nth true 1 _ y u rs 1 row U TR E) as (M' & SM' & _ & RI & _). rewrite SM in SM'. injection SM' as <-.
      unfold row_is in RI. rewrite BM in RI. destruct RI as [-> _]. reflexivity.
    - apply nth_error_None in E. apply ptrace_length in TR. cbn in TR. lia. }
  destruct (G (2 / (77/80), - tan angle * (411/77)) (0, 1 * 1)) as (rs & row & TR & NR & RY).
  do 2 eexists. exists (2 / (77/80), - tan angle * (411/77)), (0, 1 * 1), rs, row. split; [reflexivity|]. split.
  { unfold update_object. cbn [nth_error demo obind e_radius]. fold (demo p0 p3). rewrite SM. cbn [obind]. rewrite BM, R0.
    rewrite fdiv_some by lra. cbn [obind]. rewrite fdiv_some by lra. cbn [obind].
    unfold conj_update, pupil_update. cbn. reflexivity. }
  split.
  { unfold prays, wideangle, conj_slope, ftan. cbn. rewrite fdiv_some by auto. cbn [obind]. fold (tan angle).
    change (refractive_index _ 1 0) with 1.
    replace (411 / 80 * 1 / (77 / 80)) with (411/77) by field. reflexivity. }
  rewrite R0. split; [exact TR|]. split; [exact NR|]. rewrite RY. cbn [fst snd].
  intros Z. apply TA. lra.
Qed.

Print Assumptions C23_stop.
Print Assumptions C23_exit_pupil.
Print Assumptions C23_wideangle_refuted.
