(** Properties C24, C25, C49: solves and cardinal points of the paraxial trace. *)
From Coq Require Import Reals List Lra Lia Psatz.
From Verif Require Import Base Vec RotModel RotProofs PlacementModel PlacementProofs ElementModel PropsRescale
  ParaxialModel ParaxialProofs PropsParaxial LimitProofs PropsLimit ReverseModel PropsReverse PropsInverse
  PupilModel PropsPupil ParaxTraceModel PropsConjugates.
Import ListNotations.
Open Scope R_scope.

(** ** rows of the trace *)
Lemma quad_eq (a b c d a' b' c' d' : R) : a = a' -> b = b' -> c = c' -> d = d' -> (a, b, c, d) = (a', b', c', d').
Proof. intros -> -> -> ->. reflexivity. Qed.
Definition upto (xs : list element) (n l : R) (k : nat) : option m4 :=
  snd (mfold (n, Some eye4) (matrices (firstn k xs) n l)).
Lemma ptrace_row axis l e0 xs y u n0 rs k r : Forall upright xs -> ptrace axis l (e0 :: xs) y u n0 = Some rs ->
  nth_error rs k = Some r ->
  exists M, upto xs n0 l k = Some M /\ decoupled M /\ row_is axis M y u r /\ rn r = after (firstn k xs) n0 l.
Proof.
  intros U. cbn [ptrace]. destruct (ptrace_from _ _ xs _ _ _) as [rs'|] eqn:P; [|discriminate].
  cbn [obind]. intros E; injection E as <-. destruct k as [|k]; cbn [nth_error].
  - intros E; injection E as <-. exists eye4. split; [reflexivity|]. split; [apply decoupled_eye|]. split; [|reflexivity].
    unfold row_is, block, eye4. destruct axis; cbn; destruct y, u; split; cbn; f_equal; ring.
  - intros N. destruct (ptrace_from_nth _ _ _ _ _ _ _ _ _ P N) as (M & A & B & C & D & G).
    exists M. split; [exact A|]. split; [auto|]. split; [|exact G].
    unfold row_is. pose proof (block_mv axis M (fst y) (fst u) (B U)) as K1. pose proof (block_mv axis M (snd y) (snd u) (B U)) as K2.
    destruct (block axis M) as [[[a b] c] d]. destruct K1 as [K1 K1']. destruct K2 as [K2 K2'].
    rewrite C, D, K1, K1', K2, K2'. auto.
Qed.
Lemma upto_next xs n l k e : nth_error xs k = Some e ->
  upto xs n l (S k) = do m <- upto xs n l k; do me <- snd (paraxial_matrix e (after (firstn k xs) n l) l); Some (mm4 me m).
Proof.
  intros E. unfold upto.
  assert (F : firstn (S k) xs = firstn k xs ++ [e]).
  { revert k E. induction xs as [|x xs IH]; intros [|k] E; try discriminate; cbn in *.
    - injection E as ->. reflexivity.
    - f_equal. apply IH. auto. }
  rewrite F, matrices_app, mfold_app. destruct (mfold _ (matrices (firstn k xs) n l)) as [k' m]. cbn [snd].
  cbn [matrices]. destruct (paraxial_matrix e _ l) as [n1 m1]. reflexivity.
Qed.
(** every matrix of the range exists *)
Definition traceable (xs : list element) (n l : R) : Prop := Forall (fun x => snd x <> None) (matrices xs n l).
Lemma ptrace_from_some axis l xs : forall m c n, traceable xs n l <-> exists rs, ptrace_from axis l xs m c n = Some rs.
Proof.
  unfold traceable. induction xs as [|e xs IH]; intros m c n; cbn [matrices ptrace_from].
  - split; [eauto|constructor].
  - unfold propagate_paraxial. destruct (paraxial_matrix e n l) as [n1 m1]. split.
    + intros F. inversion F as [|? ? A B]; subst. destruct m1 as [m1|]; [|contradiction]. cbn [obind].
      apply (IH (mv4 m1 m) (mv4 m1 c)) in B. destruct B as (rs & ->). cbn. eauto.
    + intros (rs & E). destruct m1 as [m1|]; [|discriminate]. cbn [obind] in E. constructor; [discriminate|].
      apply (IH (mv4 m1 m) (mv4 m1 c)). destruct (ptrace_from axis l xs _ _ n1); [eauto|discriminate].
Qed.
Lemma ptrace_some axis l e0 xs y u n : traceable xs n l <-> exists rs, ptrace axis l (e0 :: xs) y u n = Some rs.
Proof.
  rewrite (ptrace_from_some axis l xs (V4 (fst y) (fst y) (fst u) (fst u)) (V4 (snd y) (snd y) (snd u) (snd u)) n).
  cbn [ptrace]. split.
  - intros (rs & ->). cbn. eauto.
  - intros (rs & E). destruct (ptrace_from _ _ _ _ _ _); [eauto|discriminate].
Qed.
(** the position part of the matrix of an upright element is a scaled transfer *)
Lemma upright_block axis e n0 l n m : upright e -> paraxial_matrix e n0 l = (n, Some m) ->
  exists k f g, block axis m = (k, k * (p_distance (e_place e) / n0), f, g) /\ n0 <> 0.
Proof.
  unfold upright, paraxial_matrix. destruct (e_kind e) as [|mt s].
  - intros _ E. injection E as _ E. unfold transfer_matrix in E. destruct (fdiv _ _) eqn:F; [|discriminate].
    cbn [obind] in E. injection E as <-. apply fdiv_inv in F. destruct F as [F ->].
    exists 1, 0, 1. split; [|auto]. unfold block. destruct axis; cbn; rewrite Rmult_1_l; reflexivity.
  - intros U E. injection E as _ E. unfold transfer_matrix in E. destruct (fdiv _ _) as [t|] eqn:F; [|discriminate].
    cbn [obind] in E. apply fdiv_inv in F. destruct F as [F ->].
    destruct (vertex_curvature s); [|discriminate]. cbn [obind] in E.
    destruct (refraction_matrix _ _ _ _ _) as [mr|] eqn:RM; [|discriminate]. cbn [obind] in E.
    rewrite U in E. fold flip4 in E. rewrite flip4_T in E. injection E as <-.
    set (t := p_distance (e_place e) / n0).
    assert (DT : decoupled (M4 (V4 1 0 t 0) (V4 0 1 0 t) (V4 0 0 1 0) (V4 0 0 0 1))) by (unfold decoupled; cbn; repeat split; reflexivity).
    pose proof (refraction_decoupled _ _ _ _ _ _ RM) as DR.
    assert (ZR : let '(_, b, _, _) := block axis mr in b = 0).
    { clear - RM. unfold refraction_matrix in RM. destruct mt as [mt|].
      2:{ injection RM as <-. unfold block; destruct axis; reflexivity. }
      destruct (m_mirror mt).
      - destruct (fdiv _ _); [|discriminate]. cbn [obind] in RM. injection RM as <-. unfold block; destruct axis; reflexivity.
      - repeat match type of RM with obind ?x _ = _ => destruct x; [cbn [obind] in RM|discriminate] end.
        injection RM as <-. unfold block; destruct axis; reflexivity. }
    assert (BF : block axis flip4 = (if axis then (-1, 0, 0, -1) else (1, 0, 0, 1))).
    { unfold flip4, azimuth_matrix, block. rewrite sin_0, cos_0. destruct axis; cbn; apply quad_eq; ring. }
    rewrite block_mm; [|apply flip_decoupled|apply decoupled_mm; [apply decoupled_mm; auto|apply flip_decoupled]].
    rewrite (block_mm _ (mm4 mr _)); [|apply decoupled_mm; auto|apply flip_decoupled].
    rewrite block_mm by auto. rewrite BF.
    destruct (block axis mr) as [[[a b] c] d]. subst b.
    assert (BT : block axis (M4 (V4 1 0 t 0) (V4 0 1 0 t) (V4 0 0 1 0) (V4 0 0 0 1)) = (1, t, 0, 1)) by (unfold block; destruct axis; reflexivity).
    rewrite BT. destruct axis; exists a; do 2 eexists; (split; [|auto]); cbv beta iota; (apply quad_eq; [ring|ring|reflexivity|reflexivity]).
Qed.

Lemma split_last2 {A} (xs : list A) : (2 <= length xs)%nat -> exists pre a b, xs = pre ++ [a; b].
Proof.
  intros L. destruct (exists_last (l := xs)) as (ys & b & ->); [intros ->; cbn in L; lia|].
  destruct (exists_last (l := ys)) as (pre & a & ->); [intros ->; cbn in L; lia|].
  exists pre, a, b. rewrite <- app_assoc. reflexivity.
Qed.
Lemma set_nth_app {A} (pre : list A) a x post : set_nth (pre ++ a :: post) (length pre) x = pre ++ x :: post.
Proof. induction pre as [|p pre IH]; cbn; [reflexivity|]. rewrite IH. reflexivity. Qed.
Lemma nth_error_mid {A} (pre : list A) a post : nth_error (pre ++ a :: post) (length pre) = Some a.
Proof. rewrite nth_error_app2 by lia. rewrite Nat.sub_diag. reflexivity. Qed.
Lemma firstn_pre {A} (pre post : list A) : firstn (length pre) (pre ++ post) = pre.
Proof. rewrite firstn_app, firstn_all, Nat.sub_diag. cbn. apply app_nil_r. Qed.
Lemma after_app xs ys n l : after (xs ++ ys) n l = after ys (after xs n l) l.
Proof. unfold after. apply fold_left_app. Qed.

(** a refracting surface without tilt and aspheric terms *)
Definition conic_lens (l : R) (e : element) : Prop := untilted (e, None) /\
  exists m s, e_kind e = Sph (Some m) s /\ m_mirror m = false /\ 0 < m_index m l /\ s_asph s = None.

(** * C24: for an object at infinity the solve delivers the requested focal length. *)
Theorem C24_focal_length axis l es y u n0 rs f es' r3 el :
  Forall upright es -> ptrace axis l es y u n0 = Some rs -> fst u = 0 ->
  nth_error es (length es - 2) = Some el -> conic_lens l el -> back rs 3 = Some r3 -> 0 < rn r3 ->
  focal_length_solve es rs f = Some es' ->
  exists rs', ptrace axis l es' y u n0 = Some rs' /\
    (snd u <> 0 -> fst y <> 0 -> n0 <> 0 -> exists g, focal_length rs' = Some (g, f)).
Proof.
  intros U TR U0 NE (UT & mt & s & K & MM & MI & AS) B3 N3 FS.
  pose proof (ptrace_length _ _ _ _ _ _ _ TR) as LN.
  assert (L3 : (3 <= length es)%nat).
  { unfold back in B3. destruct (Nat.leb_spec 3 (length rs)); [lia|discriminate]. }
  destruct es as [|e0 xs]; [cbn in L3; lia|]. destruct (split_last2 xs) as (pre & a & b & ->); [cbn in L3; lia|].
  assert (LE : length (e0 :: pre ++ [a; b]) = (length pre + 3)%nat) by (cbn; rewrite app_length; cbn; lia).
  rewrite LE in *.
  replace (length pre + 3 - 2)%nat with (S (length pre)) in * by lia. cbn [nth_error] in NE.
  rewrite nth_error_mid in NE. injection NE as ->.
  unfold back in B3. rewrite LN in B3. destruct (Nat.leb_spec 3 (length pre + 3)); [|lia].
  replace (length pre + 3 - 3)%nat with (length pre) in B3 by lia.
  assert (UX : Forall upright (pre ++ [el; b])) by (inversion U; auto).
  destruct (ptrace_row axis l e0 _ y u n0 rs _ r3 UX TR B3) as (M3 & SM3 & D3 & R3 & NR3).
  rewrite firstn_pre in NR3. rewrite NR3 in N3. set (n3 := after pre n0 l) in *.
  assert (PE : forall s, s_asph s = None -> paraxial_matrix (El (e_place el) (e_radius el) (Sph (Some mt) s)) n3 l =
    (m_index mt l, Some (mm4 (Rm ((n3 - m_index mt l) * s_c s)) (Tm (p_distance (e_place el) / n3))))).
  { intros s' A'. pose proof (prim (El (e_place el) (e_radius el) (Sph (Some mt) s'), None) l n3 (Some mt) s' (s_c s')) as P.
    apply P; auto. unfold vertex_curvature. rewrite A'. reflexivity. }
  assert (EL : El (e_place el) (e_radius el) (Sph (Some mt) s) = el) by (destruct el; cbn in *; rewrite K; reflexivity).
  (* the traced row before the solve *)
  unfold focal_length_solve in FS. rewrite (ptrace_0 _ _ _ _ _ _ _ TR) in FS. cbn [obind ry ru rn] in FS.
  unfold back in FS. rewrite LN in FS.
  destruct (Nat.leb_spec 3 (length pre + 3)); [|lia]. destruct (Nat.leb_spec 2 (length pre + 3)); [|lia].
  replace (length pre + 3 - 3)%nat with (length pre) in FS by lia.
  replace (length pre + 3 - 2)%nat with (S (length pre)) in FS by lia. rewrite B3 in FS. cbn [obind] in FS.
  destruct (nth_error rs (S (length pre))) as [r2|] eqn:B2; [|discriminate]. cbn [obind] in FS.
  destruct (ptrace_row axis l e0 _ y u n0 rs _ r2 UX TR B2) as (M2 & SM2 & D2 & R2 & NR2).
  rewrite (upto_next _ _ _ _ el (nth_error_mid pre el [b])), SM3, firstn_pre in SM2. fold n3 in SM2. cbn [obind] in SM2.
  rewrite <- EL, (PE s AS) in SM2. cbn [snd obind] in SM2. injection SM2 as <-.
  replace (firstn (S (length pre)) (pre ++ [el; b])) with (pre ++ [el]) in NR2.
  2:{ rewrite firstn_app, firstn_all2 by lia. replace (S (length pre) - length pre)%nat with 1%nat by lia. reflexivity. }
  rewrite after_app in NR2. fold n3 in NR2. cbn [after fold_left] in NR2. unfold index_after in NR2. rewrite K in NR2.
  destruct (fdiv (- fst y) f) as [q|] eqn:FQ; [|discriminate]. cbn [obind] in FS. apply fdiv_inv in FQ. destruct FQ as [NF ->].
  destruct (fdiv _ (fst (ry r2) * (rn r3 - rn r2))) as [c|] eqn:FC; [|discriminate]. cbn [obind] in FS.
  apply fdiv_inv in FC. destruct FC as [NC EC].
  rewrite LE in FS. replace (length pre + 3 - 2)%nat with (S (length pre)) in FS by lia.
  cbn [nth_error] in FS. rewrite nth_error_mid in FS. cbn [obind] in FS. rewrite K in FS. cbn [set_nth] in FS.
  rewrite set_nth_app in FS. injection FS as <-.
  set (el' := El (e_place el) (e_radius el) (Sph (Some mt) (Surf c (s_k s) (s_asph s) (s_alt s)))).
  assert (IA : index_after el' n3 l = index_after el n3 l) by (unfold index_after, el'; cbn; rewrite K; reflexivity).
  assert (PE' : paraxial_matrix el' n3 l = (m_index mt l, Some (mm4 (Rm ((n3 - m_index mt l) * c)) (Tm (p_distance (e_place el) / n3))))).
  { apply (PE (Surf c (s_k s) (s_asph s) (s_alt s))). exact AS. }
  assert (TR' : exists rs', ptrace axis l (e0 :: pre ++ [el'; b]) y u n0 = Some rs').
  { apply ptrace_some. pose proof (proj2 (ptrace_some axis l e0 (pre ++ [el; b]) y u n0) (ex_intro _ _ TR)) as T.
    unfold traceable in *. rewrite matrices_app in *. apply Forall_app in T. destruct T as [T1 T2]. apply Forall_app. split; [auto|].
    fold n3 in T2 |- *. cbn [matrices] in *. rewrite PE'. rewrite <- EL, (PE s AS) in T2.
    inversion T2; subst. constructor; [discriminate|auto]. }
  destruct TR' as (rs' & TR'). exists rs'. split; [auto|]. intros UC YM N0.
  assert (UX' : Forall upright (pre ++ [el'; b])).
  { apply Forall_app in UX. destruct UX as [UA UB]. apply Forall_app. split; [auto|]. inversion UB as [|? ? V1 V2]; subst.
    constructor; [|auto]. unfold upright in *. rewrite K in V1. exact V1. }
  pose proof (ptrace_length _ _ _ _ _ _ _ TR') as LN'. 
  assert (B2' : exists r2', nth_error rs' (S (length pre)) = Some r2').
  { destruct (nth_error rs' (S (length pre))) eqn:E; [eauto|]. apply nth_error_None in E. cbn in LN'. rewrite app_length in LN'. cbn in LN'. lia. }
  destruct B2' as (r2' & B2').
  destruct (ptrace_row axis l e0 _ y u n0 rs' _ r2' UX' TR' B2') as (M2' & SM2' & D2' & R2' & NR2').
  rewrite (upto_next _ _ _ _ el' (nth_error_mid pre el' [b])), firstn_pre in SM2'. fold n3 in SM2'.
  unfold upto in SM2', SM3. rewrite firstn_pre in SM2', SM3. rewrite SM3 in SM2'. cbn [obind] in SM2'. rewrite PE' in SM2'. cbn [snd obind] in SM2'.
  injection SM2' as <-.
  unfold row_is in R2, R2', R3. rewrite block_mm in R2, R2' by (auto; apply RT_decoupled). rewrite RT_block in R2, R2'.
  destruct (block axis M3) as [[[a0 b0] c0] d0]. destruct R2 as [RY2 _]. destruct R2' as [_ RU2']. destruct R3 as [_ RU3].
  assert (FU : fst (ru r2') = - fst y / f * n0).
  { rewrite RU2'. cbn [fst]. rewrite U0. revert EC NC. rewrite RY2, RU3, NR2, NR3. cbn [fst]. rewrite U0. intros -> NC.
    set (mi := m_index mt l) in *. set (t := p_distance (e_place el) / n3) in *. clearbody t mi.
    assert (n3 - mi <> 0) by (intros Z; apply NC; rewrite Z; ring).
    match type of NC with ?Y * _ <> _ => set (Y0 := Y) in *; transitivity (c0 * fst y + d0 * 0 + (n3 - mi) * ((- fst y / f * n0 - (c0 * fst y + d0 * 0)) / (Y0 * (n3 - mi))) * Y0) end.
    - unfold Y0. ring.
    - assert (Y0 <> 0) by (intros Z; apply NC; rewrite Z; ring). clearbody Y0. field. auto. }
  unfold focal_length, lagrange. rewrite (ptrace_0 _ _ _ _ _ _ _ TR'). cbn [obind ry ru rn].
  unfold back. rewrite LN'. replace (length (e0 :: pre ++ [el'; b])) with (length pre + 3)%nat by (cbn; rewrite app_length; cbn; lia).
  destruct (Nat.leb_spec 2 (length pre + 3)); [|lia]. replace (length pre + 3 - 2)%nat with (S (length pre)) by lia.
  rewrite B2'. cbn [obind]. rewrite FU, U0.
  assert (NZ : snd u * (- fst y / f * n0) - 0 * snd (ru r2') <> 0).
  { replace (snd u * (- fst y / f * n0) - 0 * snd (ru r2')) with (- (snd u * fst y * n0 * / f)) by (field; auto).
    apply Ropp_neq_0_compat. repeat apply Rmult_integral_contrapositive_currified; auto. apply Rinv_neq_0_compat; auto. }
  rewrite fdiv_some by auto. cbn [obind]. eexists. f_equal. f_equal. field. repeat split; auto.
Qed.

(** a single water surface of vertex curvature [c], object and image *)
Definition single (p0 p3 : placement) (s : surf) : list element :=
  [El p0 None (Sph (Some vac) flat); El p3 (Some 4) (Sph (Some water) s); El p3 None (Sph None flat)].
Lemma single_facts : exists p0 p3, init 0 ez v0 None = Some p0 /\ init 3 ez v0 None = Some p3 /\
  untilted (El p3 (Some 4) Plain, None) /\
  forall axis s c y u, vertex_curvature s = Some c -> Forall upright (single p0 p3 s) /\
    ptrace axis 1 (single p0 p3 s) y u 1 = Some
      [PRow y u 1;
       let y1 := (fst y + 3 * fst u, snd y + 3 * snd u) in
       let u1 := (fst u - 1/3 * c * fst y1, snd u - 1/3 * c * snd y1) in
       PRow y1 u1 (4/3);
       let y1 := (fst y + 3 * fst u, snd y + 3 * snd u) in
       let u1 := (fst u - 1/3 * c * fst y1, snd u - 1/3 * c * snd y1) in
       PRow (fst y1 + 9/4 * fst u1, snd y1 + 9/4 * snd u1) u1 (4/3)].
Proof.
  destruct (centred_axis 0) as (p0 & E0 & U0 & D0 & _ & A0); [lra|].
  destruct (centred_axis 3) as (p3 & E3 & U3 & D3 & _ & A3); [lra|].
  exists p0, p3. split; [auto|]. split; [auto|]. split; [split; auto|]. intros axis s c y u VC. split.
  { unfold single. repeat apply Forall_cons; [..|apply Forall_nil]; unfold upright; cbn; rewrite ?A0, ?A3; reflexivity. }
  pose proof (prim (El p3 (Some 4) (Sph (Some water) s), None) 1 1 (Some water) s c) as P1.
  pose proof (prim (El p3 None (Sph None flat), None) 1 (4/3) None flat 0) as P2.
  unfold single. cbn [ptrace ptrace_from]. unfold propagate_paraxial.
  change (El p3 (Some 4) (Sph (Some water) s)) with (fst (El p3 (Some 4) (Sph (Some water) s), @None material)).
  rewrite P1; auto; [|split; auto|lra|split; [reflexivity|cbn; lra]]. cbn [obind].
  change (El p3 None (Sph None flat)) with (fst (El p3 None (Sph None flat), @None material)).
  change (m_index water 1) with (4/3).
  rewrite P2; auto; [|split; auto|lra]. cbn [obind].
  unfold dist. cbn [fst e_place]. rewrite D3.
  set (m1 := mm4 (Rm _) (Tm (3 / 1))). set (m2 := mm4 (Rm 0) _).
  assert (X1 : forall a p, mv4 m1 (V4 a a p p) = let y := a + 3 * p in let v := p - 1/3 * c * y in V4 y y v v).
  { intros a p. unfold m1. rewrite mv4_mm4, Tm_mv, Rm_mv. cbv zeta. apply v4_eq; cbn [w0 w1 w2 w3]; field. }
  assert (X2 : forall a p, mv4 m2 (V4 a a p p) = let y := a + 9/4 * p in V4 y y p p).
  { intros a p. unfold m2. rewrite mv4_mm4, Tm_mv, Rm_mv. cbv zeta. apply v4_eq; cbn [w0 w1 w2 w3]; field. }
  rewrite !X1. cbv zeta. rewrite !X2. cbv zeta. unfold row_y, row_u. cbn [w0 w1 w2 w3 fst snd].
  destruct axis; reflexivity.
Qed.

Example C24_example : exists p0 p3 rs es', init 0 ez v0 None = Some p0 /\ init 3 ez v0 None = Some p3 /\
  let es := single p0 p3 (Surf 0 (1/2) None false) in
  Forall upright es /\ ptrace true 1 es (2, -1) (0, 1/3) 1 = Some rs /\
  (exists el, nth_error es (length es - 2) = Some el /\ conic_lens 1 el) /\
  (exists r3, back rs 3 = Some r3 /\ 0 < rn r3) /\ focal_length_solve es rs 100 = Some es' /\ es' <> es.
Proof.
  destruct single_facts as (p0 & p3 & E0 & E3 & UT & F). exists p0, p3.
  destruct (F true (Surf 0 (1/2) None false) 0 (2, -1) (0, 1/3) eq_refl) as (U & T). cbn [fst snd] in T.
  eexists. eexists. split; [auto|]. split; [auto|]. cbv zeta. split; [auto|]. split; [exact T|].
  split. { eexists. split; [reflexivity|]. split; [exact UT|]. exists water. eexists. split; [reflexivity|]. cbn. repeat split; auto. lra. }
  split. { eexists. split; [reflexivity|]. cbn. lra. }
  unfold focal_length_solve, back. cbn [length Nat.leb Nat.sub nth_error obind ry ru rn fst snd single e_kind].
  rewrite fdiv_some by lra. cbn [obind]. rewrite fdiv_some by lra. cbn [obind]. split; [reflexivity|].
  cbn [set_nth]. intros E. injection E as E. lra.
Qed.

(** Refuted for an aspheric last surface: the solve ignores that the aspheric r^2
    term adds to the vertex curvature *)
Theorem C24_aspheric_refuted : exists es rs es' rs' g h,
  ptrace true 1 es (2, -1) (0, 1/3) 1 = Some rs /\ focal_length_solve es rs 100 = Some es' /\
  ptrace true 1 es' (2, -1) (0, 1/3) 1 = Some rs' /\ focal_length rs' = Some (g, h) /\ h <> 100.
Proof.
  destruct single_facts as (p0 & p3 & _ & _ & _ & F).
  destruct (F true (Surf 0 0 (Some [1/100]) false) (0 + 2 * (1/100)) (2, -1) (0, 1/3) eq_refl) as (_ & T).
  destruct (F true (Surf (3/100) 0 (Some [1/100]) false) (3/100 + 2 * (1/100)) (2, -1) (0, 1/3) eq_refl) as (_ & T').
  cbn [fst snd] in T, T'.
  exists (single p0 p3 (Surf 0 0 (Some [1/100]) false)). eexists. exists (single p0 p3 (Surf (3/100) 0 (Some [1/100]) false)).
  do 3 eexists. split; [exact T|]. split.
  { unfold focal_length_solve, back. cbn [length Nat.leb Nat.sub nth_error obind ry ru rn fst snd single e_kind].
    rewrite fdiv_some by lra. cbn [obind]. rewrite fdiv_some by lra. cbn [obind set_nth]. unfold single.
    cbn [set_nth length Nat.sub e_kind e_place e_radius s_k s_asph s_alt].
    match goal with |- Some [_; El _ _ (Sph _ (Surf ?c _ _ _)); _] = _ => replace c with (3/100) by field end. reflexivity. }
  split; [exact T'|].
  unfold focal_length, lagrange, back. cbn [length Nat.leb Nat.sub nth_error obind ry ru rn fst snd].
  rewrite fdiv_some by lra. cbn [obind]. split; [reflexivity|]. lra.
Qed.

(** * C25 *)
(** what the retrace gives at the image element for any required distance *)
Lemma refocus_trace axis l es y u n0 rs es' r2 :
  Forall upright es -> Forall (fun e => normal_form (e_place e)) es ->
  ptrace axis l es y u n0 = Some rs -> back rs 2 = Some r2 -> refocus es rs = Some es' ->
  let d := - rn r2 * fst (ry r2) / fst (ru r2) in
  fst (ru r2) <> 0 /\ rn r2 <> 0 /\
  exists rs' r k, ptrace axis l es' y u n0 = Some rs' /\ back rs' 1 = Some r /\ back rs' 2 = Some r2 /\
    fst (ry r) = k * (fst (ry r2) + Rabs d / rn r2 * fst (ru r2)) /\
    (forall el, nth_error es (length es - 1) = Some el -> p_angles (e_place el) = v0 ->
       (forall m s, e_kind el = Sph (Some m) s -> 0 < m_index m l /\ 0 < rn r2) -> k = 1).
Proof.
  intros U NFO TR B2 RF d.
  pose proof (ptrace_length _ _ _ _ _ _ _ TR) as LN.
  assert (L2 : (2 <= length es)%nat).
  { unfold back in B2. destruct (Nat.leb_spec 2 (length rs)); [lia|discriminate]. }
  destruct es as [|e0 xs]; [cbn in L2; lia|]. destruct (exists_last (l := xs)) as (pre & b & ->); [intros ->; cbn in L2; lia|].
  assert (LE : length (e0 :: pre ++ [b]) = (length pre + 2)%nat) by (cbn; rewrite app_length; cbn; lia).
  assert (B2' := B2). unfold back in B2'. rewrite LN, LE in B2'. destruct (Nat.leb_spec 2 (length pre + 2)); [|lia].
  replace (length pre + 2 - 2)%nat with (length pre) in B2' by lia.
  assert (UX : Forall upright (pre ++ [b])) by (inversion U; auto).
  destruct (ptrace_row axis l e0 _ y u n0 rs _ r2 UX TR B2') as (M2 & SM2 & D2 & R2 & NR2).
  rewrite firstn_pre in NR2. unfold refocus in RF. rewrite B2 in RF. cbn [obind] in RF.
  destruct (fdiv _ (fst (ru r2))) as [d'|] eqn:FD; [|discriminate]. cbn [obind] in RF. apply fdiv_inv in FD.
  destruct FD as [NU ->]. fold d in RF. rewrite LE in *.
  replace (length pre + 2 - 1)%nat with (S (length pre)) in * by lia. cbn [nth_error] in RF. rewrite nth_error_mid in RF. cbn [obind] in RF.
  assert (NB : normal_form (e_place b)).
  { rewrite Forall_forall in NFO. apply NFO. right. apply in_or_app. right. left. reflexivity. }
  destruct (set_distance_spec (e_place b) d NB) as (q & SD & _ & QD & QA). rewrite SD in RF. cbn [obind] in RF.
  cbn [set_nth] in RF. rewrite set_nth_app in RF. injection RF as <-.
  set (b' := El q (e_radius b) (e_kind b)).
  pose proof (proj2 (ptrace_some axis l e0 (pre ++ [b]) y u n0) (ex_intro _ _ TR)) as T.
  unfold traceable in T. rewrite matrices_app in T. apply Forall_app in T. destruct T as [T1 T2].
  rewrite <- NR2 in T2. cbn [matrices] in T2.
  destruct (paraxial_matrix b (rn r2) l) as [n1 mb] eqn:PB. inversion T2 as [|? ? T3 _]; subst. cbn [snd] in T3.
  destruct mb as [mb|]; [|contradiction].
  assert (UB : upright b) by (apply Forall_app in UX; destruct UX as [_ UB]; inversion UB; auto).
  assert (UB' : upright b') by (unfold upright, b' in *; cbn [e_kind e_place]; destruct (e_kind b); [exact I|rewrite QA; exact UB]).
  destruct (upright_block axis b _ _ _ _ UB PB) as (_ & _ & _ & _ & NN).
  assert (PB' : exists mb', paraxial_matrix b' (rn r2) l = (n1, Some mb')).
  { revert PB. unfold paraxial_matrix, b', index_after. cbn [e_kind e_place]. rewrite QA. unfold transfer_matrix.
    rewrite !fdiv_some by auto. cbn [obind]. destruct (e_kind b) as [|mt s].
    - intros E. injection E as <- _. eauto.
    - destruct (vertex_curvature s); [|discriminate]. cbn [obind].
      destruct (refraction_matrix _ _ _ _ _); [|discriminate]. cbn [obind]. intros E. injection E as <- _. eauto. }
  destruct PB' as (mb' & PB'). split; [auto|]. split; [auto|].
  assert (TR' : exists rs', ptrace axis l (e0 :: pre ++ [b']) y u n0 = Some rs').
  { apply ptrace_some. unfold traceable. rewrite matrices_app. apply Forall_app. split; [auto|].
    rewrite <- NR2. cbn [matrices]. rewrite PB'. constructor; [discriminate|constructor]. }
  destruct TR' as (rs' & TR'). pose proof (ptrace_length _ _ _ _ _ _ _ TR') as LN'.
  assert (LE' : length (e0 :: pre ++ [b']) = (length pre + 2)%nat) by (cbn; rewrite app_length; cbn; lia). rewrite LE' in LN'.
  assert (UX' : Forall upright (pre ++ [b'])) by (apply Forall_app in UX; destruct UX; apply Forall_app; split; auto).
  destruct (nth_error rs' (S (length pre))) as [r1|] eqn:B1; [|apply nth_error_None in B1; lia].
  destruct (nth_error rs' (length pre)) as [r2'|] eqn:B2''; [|apply nth_error_None in B2''; lia].
  destruct (ptrace_row axis l e0 _ y u n0 rs' _ r1 UX' TR' B1) as (M1 & SM1 & D1 & R1 & NR1).
  destruct (ptrace_row axis l e0 _ y u n0 rs' _ r2' UX' TR' B2'') as (M2' & SM2' & D2' & R2' & NR2').
  rewrite (upto_next _ _ _ _ b' (nth_error_mid pre b' [])), SM2' in SM1. rewrite firstn_pre, <- NR2 in SM1. cbn [obind] in SM1.
  unfold upto in SM2, SM2'. rewrite firstn_pre in SM2, SM2', NR2'. rewrite SM2 in SM2'. injection SM2' as <-.
  assert (RR : r2' = r2).
  { unfold row_is in R2, R2'. destruct (block axis M2) as [[[? ?] ?] ?]. destruct R2 as [X1 X2]. destruct R2' as [Y1 Y2].
    destruct r2, r2'. cbn in *. congruence. }
  subst r2'. rewrite PB' in SM1. cbn [snd obind] in SM1. injection SM1 as <-.
  assert (DB : decoupled mb') by (eapply upright_decoupled; eauto).
  destruct (upright_block axis b' _ _ _ _ UB' PB') as (k & f & g & BK & _).
  exists rs', r1, k. split; [auto|]. unfold back. rewrite LN'. destruct (Nat.leb_spec 1 (length pre + 2)); [|lia].
  destruct (Nat.leb_spec 2 (length pre + 2)); [|lia].
  replace (length pre + 2 - 1)%nat with (S (length pre)) by lia. replace (length pre + 2 - 2)%nat with (length pre) by lia.
  split; [auto|]. split; [auto|]. split.
  - unfold row_is in R1, R2. rewrite block_mm, BK in R1 by auto. destruct (block axis M2) as [[[a2 b2] c2] d2].
    destruct R1 as [-> _]. destruct R2 as [-> ->]. cbn [fst]. unfold b'. cbn [e_place]. rewrite QD. ring.
  - intros el NE AE MK. cbn [nth_error] in NE. rewrite nth_error_mid in NE. injection NE as <-.
    clear - PB' BK QA AE MK NN. revert PB'. unfold paraxial_matrix, b', index_after. cbn [e_kind e_place].
    unfold transfer_matrix. rewrite fdiv_some by auto. cbn [obind]. rewrite QA, AE. destruct (e_kind b) as [|mt s] eqn:K.
    + intros E. injection E as _ <-. unfold block in BK. destruct axis; cbn in BK; injection BK as <-; reflexivity.
    + destruct (vertex_curvature s) as [c|]; [|discriminate]. cbn [obind vx vz v0]. rewrite cos_0.
      destruct (refraction_matrix _ _ _ _ _) as [mr|] eqn:RM; [|discriminate]. cbn [obind]. intros E. injection E as _ <-.
      assert (X : forall x y p z, row_y axis (mv4 mr (V4 x y p z)) = row_y axis (V4 x y p z)).
      { intros x y p z. clear BK. unfold refraction_matrix in RM. destruct mt as [mt|].
        2:{ injection RM as <-. rewrite eye_mv. reflexivity. }
        destruct (m_mirror mt).
        - destruct (fdiv _ _); [|discriminate]. cbn [obind] in RM. injection RM as <-. unfold row_y, mv4, dot4. destruct axis; cbn; ring.
        - destruct (MK mt s eq_refl) as [MP RP]. set (n := m_index mt l) in *.
          assert (MU : 0 < n / rn r2) by (apply Rdiv_lt_0_compat; auto).
          assert (S : sqrt ((n / rn r2) ^ 2 + 1 ^ 2 - 1) = n / rn r2).
          { replace ((n / rn r2) ^ 2 + 1 ^ 2 - 1) with ((n / rn r2) * (n / rn r2)) by ring. apply sqrt_square. lra. }
          rewrite fdiv_some in RM by lra. cbn [obind] in RM. rewrite fsqrt_some in RM by nra. cbn [obind] in RM. rewrite S in RM.
          rewrite fdiv_some in RM by lra. cbn [obind] in RM. rewrite fdiv_some in RM by lra. cbn [obind] in RM.
          replace (n / rn r2 / (n / rn r2 * 1)) with 1 in RM by (field; lra). rewrite fdiv_some in RM by lra. cbn [obind] in RM.
          injection RM as <-. rewrite lens_mv. unfold row_y. destruct axis; cbn; ring. }
      fold flip4 in BK. rewrite flip4_T in BK.
      assert (Y : row_y axis (mv4 (mm4 flip4 (mm4 (mm4 mr (M4 (V4 1 0 (p_distance q / rn r2) 0) (V4 0 1 0 (p_distance q / rn r2)) (V4 0 0 1 0) (V4 0 0 0 1))) flip4)) (V4 1 1 0 0)) = 1).
      { rewrite !mv4_mm4, flip4_mv, transfer_mv.
        match goal with |- context [mv4 mr ?v] => destruct (mv4 mr v) as [x1 x2 x3 x4] eqn:E; pose proof (f_equal (row_y axis) E) as E' end.
        rewrite X in E'. rewrite flip4_mv. unfold row_y in *. destruct axis; cbn in *; lra. }
      assert (Z : forall m, row_y axis (mv4 m (V4 1 1 0 0)) = 1 -> decoupled m -> let '(k, _, _, _) := block axis m in k = 1).
      { clear. intros m E D. pose proof (block_mv axis m 1 0 D) as B. destruct (block axis m) as [[[a b] c] d].
        destruct B as [B _]. rewrite B in E. lra. }
      specialize (Z _ Y). rewrite BK in Z. apply Z.
      apply decoupled_mm; [apply flip_decoupled|]. apply decoupled_mm; [|apply flip_decoupled].
      apply decoupled_mm; [eapply refraction_decoupled; eauto|unfold decoupled; cbn; repeat split; reflexivity].
Qed.

(** the image is in focus whenever the required distance is not negative *)
Theorem C25_in_focus axis l es y u n0 rs es' r2 :
  Forall upright es -> Forall (fun e => normal_form (e_place e)) es ->
  ptrace axis l es y u n0 = Some rs -> back rs 2 = Some r2 ->
  0 <= - rn r2 * fst (ry r2) / fst (ru r2) ->
  refocus es rs = Some es' ->
  exists rs' r, ptrace axis l es' y u n0 = Some rs' /\ back rs' 1 = Some r /\ fst (ry r) = 0.
Proof.
  intros U NF TR B2 DP RF. destruct (refocus_trace axis l es y u n0 rs es' r2 U NF TR B2 RF) as (NU & NN & rs' & r & k & T & B & _ & E & _).
  exists rs', r. split; [auto|]. split; [auto|]. rewrite E, Rabs_pos_eq by auto. field. auto.
Qed.
(** For a virtual image the placement setter turns the negative distance into a positive
    one; the height at the image element becomes twice the height before, never 0
    unless it was 0 before. *)
Theorem C25_virtual_refuted axis l es y u n0 rs es' r2 el :
  Forall upright es -> Forall (fun e => normal_form (e_place e)) es ->
  ptrace axis l es y u n0 = Some rs -> back rs 2 = Some r2 ->
  nth_error es (length es - 1) = Some el -> p_angles (e_place el) = v0 ->
  (forall m s, e_kind el = Sph (Some m) s -> 0 < m_index m l /\ 0 < rn r2) ->
  - rn r2 * fst (ry r2) / fst (ru r2) < 0 ->
  refocus es rs = Some es' ->
  exists rs' r, ptrace axis l es' y u n0 = Some rs' /\ back rs' 1 = Some r /\ fst (ry r) = 2 * fst (ry r2) /\ fst (ry r) <> 0.
Proof.
  intros U NF TR B2 NE AN MK DP RF. destruct (refocus_trace axis l es y u n0 rs es' r2 U NF TR B2 RF) as (NU & NN & rs' & r & k & T & B & _ & E & K).
  specialize (K el NE AN MK). subst k. exists rs', r. split; [auto|]. split; [auto|].
  assert (X : fst (ry r) = 2 * fst (ry r2)).
  { rewrite E, Rabs_left by auto. field. auto. }
  split; [exact X|]. rewrite X. intros Z. assert (fst (ry r2) = 0) by lra. rewrite H in DP. unfold Rdiv in DP. rewrite Rmult_0_r, Rmult_0_l in DP. lra.
Qed.

Lemma init_nf d u a o p : init d u a o = Some p -> normal_form p.
Proof. intros E. destruct (init_spec d u a o) as (q & E' & N & _). rewrite E in E'. injection E' as <-. exact N. Qed.
Example C25_example : exists p0 p3, init 0 ez v0 None = Some p0 /\ init 3 ez v0 None = Some p3 /\
  (exists es rs r2 es', es = single p0 p3 (Surf (1/20) 0 None false) /\
    Forall upright es /\ Forall (fun e => normal_form (e_place e)) es /\
    ptrace true 1 es (2, -1) (0, 1/3) 1 = Some rs /\ back rs 2 = Some r2 /\
    0 <= - rn r2 * fst (ry r2) / fst (ru r2) /\ refocus es rs = Some es') /\
  (exists es rs r2 es' el, es = single p0 p3 (Surf (-1/20) 0 None false) /\
    ptrace true 1 es (2, -1) (0, 1/3) 1 = Some rs /\ back rs 2 = Some r2 /\
    nth_error es (length es - 1) = Some el /\ p_angles (e_place el) = v0 /\ (forall m s, e_kind el <> Sph (Some m) s) /\
    - rn r2 * fst (ry r2) / fst (ru r2) < 0 /\ refocus es rs = Some es').
Proof.
  destruct single_facts as (p0 & p3 & E0 & E3 & UT & F). exists p0, p3. split; [auto|]. split; [auto|].
  assert (RF : forall c r2 rs, back rs 2 = Some r2 -> fst (ru r2) <> 0 -> exists es', refocus (single p0 p3 (Surf c 0 None false)) rs = Some es').
  { intros c r2 rs B N. unfold refocus. rewrite B. cbn [obind]. rewrite fdiv_some by auto. cbn [obind length single Nat.sub nth_error e_place].
    destruct (set_distance_spec p3 (- rn r2 * fst (ry r2) / fst (ru r2)) (init_nf _ _ _ _ _ E3)) as (q & -> & _). cbn [obind]. eauto. }
  split.
  - destruct (F true (Surf (1/20) 0 None false) (1/20) (2, -1) (0, 1/3) eq_refl) as (U & T). cbn [fst snd] in T.
    match type of T with _ = Some ?rs => match rs with [_; ?r; _] => destruct (RF (1/20) r rs eq_refl ltac:(cbn; lra)) as (es' & E) end end.
    do 4 eexists. split; [reflexivity|]. split; [auto|]. split.
    { unfold single. repeat apply Forall_cons; [..|apply Forall_nil]; cbn; eapply init_nf; eauto. }
    split; [exact T|]. split; [reflexivity|]. split; [cbn; lra|exact E].
  - destruct (F true (Surf (-1/20) 0 None false) (-1/20) (2, -1) (0, 1/3) eq_refl) as (U & T). cbn [fst snd] in T.
    match type of T with _ = Some ?rs => match rs with [_; ?r; _] => destruct (RF (-1/20) r rs eq_refl ltac:(cbn; lra)) as (es' & E) end end.
    do 5 eexists. split; [reflexivity|]. split; [exact T|]. split; [reflexivity|]. split; [reflexivity|]. split; [apply UT|].
    split; [discriminate|]. split; [cbn; lra|exact E].
Qed.

Print Assumptions C24_focal_length.
Print Assumptions C24_aspheric_refuted.
Print Assumptions C25_in_focus.
Print Assumptions C25_virtual_refuted.
