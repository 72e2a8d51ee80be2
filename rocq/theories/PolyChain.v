(** Lemmas for the polynomial ray trace (C43): induction over the elements. *)
From Coq Require Import Reals List Arith ZArith Lia Lra Psatz FunctionalExtensionality Permutation.
From Verif Require Import Base Vec RotModel RotProofs PlacementModel PlacementProofs ElementModel ParaxialModel PupilModel SimplexModel SimplexPowModel SimplexTransform PropsTransform SimplexComb SimplexEnum SimplexMul SimplexEval PolyModel TaylorProofs PolyProofs.
Import ListNotations.
Open Scope R_scope.

(** * frames *)
Definition half_turn : mat := M (V 1 0 0) (V 0 (-1) 0) (V 0 0 (-1)).
Lemma unit_ez : unit_or_axis ez = Some ez.
Proof.
  unfold unit_or_axis. assert (N : norm ez = 1) by (unfold norm, dot, ez; cbn [vx vy vz]; replace (0 * 0 + 0 * 0 + 1 * 1) with 1 by ring; apply sqrt_1). rewrite N. destruct (Req_EM_T 1 0); [lra|]. unfold ez; cbn [vx vy vz]. rewrite !fdiv_some by lra. cbn [obind]. f_equal. f_equal; field.
Qed.
Lemma close_ez : allclose ez ez = true.
Proof. apply allclose_ez. unfold ez, tol. cbn [vx vy vz]. rewrite Rminus_diag_eq, Rabs_R0 by auto. lra. Qed.
Lemma close_v0 : allclose v0 v0 = true.
Proof. apply allclose_v0; unfold v0, tol; cbn [vx vy vz]; rewrite Rabs_R0; lra. Qed.
Lemma place_front d : 0 <= d -> init d ez v0 None = Some (Placement d ez (V 0 0 d) v0 true true None None).
Proof.
  intros D. unfold init, update. rewrite unit_ez. cbn [obind]. destruct (Rlt_dec d 0); [lra|].
  rewrite close_ez, close_v0. cbn [andb obind]. f_equal. f_equal. unfold vmul3, ez; cbn. f_equal; ring.
Qed.
Lemma place_back d : 0 < d -> init (- d) ez v0 None = Some (Placement d (V 0 0 (-1)) (V 0 0 (- d)) v0 false true (Some half_turn) (Some half_turn)).
Proof.
  intros D. unfold init, update. rewrite unit_ez. cbn [obind]. destruct (Rlt_dec (- d) 0); [|lra].
  assert (U : vmul3 (-1) ez = V 0 0 (-1)) by (unfold vmul3, ez; cbn; f_equal; ring). rewrite U.
  assert (E1 : allclose (V 0 0 (-1)) ez = false).
  { destruct (allclose (V 0 0 (-1)) ez) eqn:E; [|auto]. apply allclose_ez in E. cbn [vx vy vz] in E. destruct E as (_ & _ & E). revert E. unfold tol. rewrite ?Rabs_left by lra. lra. }
  rewrite E1, close_v0. cbn [andb obind]. unfold axis_rotation. assert (CR : cross (V 0 0 (-1)) ez = v0) by (unfold cross, ez, v0; cbn [vx vy vz]; f_equal; ring). rewrite CR.
  assert (N : norm v0 = 0) by (unfold norm, dot, v0; cbn [vx vy vz]; replace (0 * 0 + 0 * 0 + 0 * 0) with 0 by ring; apply sqrt_0). rewrite N, asin_0. cbn [vz]. destruct (Rlt_dec (-1) 0); [|lra]. rewrite close_v0.
  assert (UX : unit_vector ex = Some ex). { unfold unit_vector. assert (NX : norm ex = 1) by (unfold norm, dot, ex; cbn [vx vy vz]; replace (1 * 1 + 0 * 0 + 0 * 0) with 1 by ring; apply sqrt_1). rewrite NX. unfold ex; cbn [vx vy vz]. rewrite !fdiv_some by lra. cbn [obind]. f_equal. f_equal; field. }
  assert (RM : rotation_matrix (PI - 0) ex = Some half_turn).
  { unfold rotation_matrix. rewrite UX. cbn [obind]. rewrite Rminus_0_r, sin_PI, cos_PI. f_equal. unfold half_turn, madd, mscale, outer, vadd3, vmul3, ex. cbn [vx vy vz row0 row1 row2]. f_equal; f_equal; ring. }
  rewrite RM. cbn [obind]. rewrite mm_eye_l. f_equal. unfold vmul3. cbn [vx vy vz]. f_equal; try ring. f_equal; ring.
Qed.

(** * rows of surfaces *)
(** curvature and offset along the fixed axis, index behind, index ratio *)
Record surface := SF { sf_c : R; sf_d : R; sf_n : R; sf_mu : R }.
Definition sg (back : bool) : R := if back then -1 else 1.
Definition surface_of (l n0 : R) (back : bool) (e : element) (s : surface) : Prop :=
  exists mat c d, e_kind e = Sph mat (Surf c 0 None false) /\ init (if back then - d else d) ez v0 None = Some (e_place e) /\ (0 < d \/ (c = 0 /\ d = 0 /\ back = false)) /\
    get_n_mu mat n0 l = (sf_n s, Some (sf_mu s)) /\ (0 < sf_mu s \/ sf_mu s = -1) /\ 0 < sf_n s /\ sf_c s = sg back * c /\ sf_d s = sg back * d.
Fixpoint row_of (l n0 : R) (back : bool) (es : list element) (ss : list surface) : Prop :=
  match es, ss with [], [] => True | e :: es, s :: ss => surface_of l n0 back e s /\ row_of l (sf_n s) (xorb back (is_mirror (sf_mu s))) es ss | _, _ => False end.
Definition next (s : surface) (X : xst) : xst := xnext (sf_c s) (sf_d s) (sf_mu s) (sf_n s) X.
Fixpoint xrun (ss : list surface) (X : xst) : list xst := match ss with [] => [] | s :: ss => next s X :: xrun ss (next s X) end.
Fixpoint allfine (ss : list surface) (X : xst) : Prop := match ss with [] => True | s :: ss => xfine (sf_c s) (sf_d s) (sf_mu s) X /\ allfine ss (next s X) end.
Definition xdefault := XS 0 0 0 0 0 0 0 0 0 0.

Lemma xrun_length ss : forall X, length (xrun ss X) = length ss.
Proof. induction ss as [|s ss IH]; intros X; cbn; auto. Qed.
Lemma row_length l es : forall n0 back ss, row_of l n0 back es ss -> length es = length ss.
Proof. induction es as [|e es IH]; intros n0 back [|s ss] H; try contradiction; cbn; [auto|]. f_equal. eapply IH, H. Qed.

Lemma lab_step newton l e back s X1 X2 A1 A2 X y u es : surface_of l (x_n X) back e s -> carries_dir back X1 X2 A1 A2 X y u -> xfine (sf_c s) (sf_d s) (sf_mu s) X ->
  exists yl ul t i0 y' u', sys_propagate newton (e :: es) (Some y) (Some u) (x_n X) l false = Step (Some yl) (Some ul) (sf_n s) i0 (Some t) :: sys_propagate newton es (Some y') (Some u') (sf_n s) l false /\
    from_normal (e_place e) yl = Some y' /\ from_normal (e_place e) ul = Some u' /\ carries_dir (xorb back (is_mirror (sf_mu s))) X1 X2 A1 A2 (next s X) y' u' /\ sg back * t = x_o (next s X) - x_o X.
Proof.
  intros (mat & c & d & K & IN & DP & GM & MU & NP & EC & ED) (u0 & CA & EU) FI. destruct s as [c' d' n mu]. unfold next. cbn [sf_c sf_d sf_n sf_mu] in *. destruct back.
  - destruct DP as [DP|(_ & _ & DP)]; [|discriminate DP]. rewrite place_back in IN by auto. injection IN as IN. set (p := e_place e) in *.
    assert (TN : forall v, to_normal p v = Some (turn v)) by (intros v; rewrite <- IN; unfold to_normal, do_rotate, p_rotated; cbn [p_normal p_straight p_rot_normal andb negb]; f_equal; unfold turn, half_turn; destruct v; vec_ring).
    assert (FN : forall v, from_normal p v = Some (turn v)) by (intros v; rewrite <- IN; unfold from_normal, do_rotate, p_rotated; cbn [p_normal p_straight p_rot_normal andb negb]; f_equal; unfold turn, half_turn; destruct v; vec_ring).
    assert (OF : p_offset p = V 0 0 (- d)) by (rewrite <- IN; reflexivity).
    unfold sg in *. assert (EC2 : c' = - c) by lra. assert (ED2 : d' = - d) by lra. clear EC ED. subst c' d'. apply flip_fine in FI. apply flip_carries in CA.
    destruct (local_step newton l e mat c d n mu X1 (- X2) (- A1) A2 (flip X) (turn y) (turn (vmul3 (-1) u0)) K GM MU CA FI) as (yl & ul & t & PR & (ul' & CA' & EU') & TE).
    assert (YE : turn (vsub3 y (V 0 0 (- d))) = vsub3 (turn y) (V 0 0 d)) by (destruct y; apply vec_eq; cbn; ring).
    exists yl, ul, t, (Some (turn u)), (turn yl), (turn ul). split; [|split; [apply FN|split; [apply FN|split]]].
    + cbn [sys_propagate]. fold p. rewrite OF. unfold onormal. cbn [obind]. rewrite !TN, YE, EU. cbn [obind]. change (x_n (flip X)) with (x_n X) in PR. rewrite PR. cbn [obind]. rewrite !FN. reflexivity.
    + rewrite flip_next in CA'. assert (CB : carries X1 (- X2) (- A1) A2 (flip (xnext (- c) (- d) mu n X)) yl ul') by exact CA'. apply flip_carries in CB. rewrite unflip in CB. rewrite !Ropp_involutive in CB.
      exists (turn (vmul3 (-1) ul')). split; [exact CB|]. rewrite EU'. destruct (is_mirror mu); cbn [xorb]; [reflexivity|]. destruct ul' as [a b z]. apply vec_eq; cbn; ring.
    + rewrite TE, flip_next. cbn [x_o flip]. ring.
  - assert (D0 : 0 <= d) by (destruct DP as [DP|(_ & DP & _)]; lra). rewrite place_front in IN by auto. injection IN as IN. set (p := e_place e) in *.
    assert (TN : forall v, to_normal p v = Some v) by (intros v; rewrite <- IN; reflexivity). assert (FN : forall v, from_normal p v = Some v) by (intros v; rewrite <- IN; reflexivity).
    assert (OF : p_offset p = V 0 0 d) by (rewrite <- IN; reflexivity). unfold sg in *. assert (EC2 : c' = c) by lra. assert (ED2 : d' = d) by lra. clear EC ED. subst c' d' u.
    destruct (local_step newton l e mat c d n mu X1 X2 A1 A2 X y u0 K GM MU CA FI) as (yl & ul & t & PR & CA' & TE).
    exists yl, ul, t, (Some u0), yl, ul. split; [|split; [apply FN|split; [apply FN|split]]].
    + cbn [sys_propagate]. fold p. rewrite OF. unfold onormal. cbn [obind]. rewrite !TN, PR. cbn [obind]. rewrite !FN. reflexivity.
    + destruct (is_mirror mu); exact CA'.
    + rewrite TE. ring.
Qed.

(** path with signs: lengths behind an odd number of mirrors count negative *)
Definition orient (e : element) : R := if Rlt_dec (vz (p_offset (e_place e))) 0 then -1 else 1.
Fixpoint signed_path (ws : list R) (l : list step) : option R :=
  match ws, l with w :: ws, s :: l => do t <- st_t s; do p <- signed_path ws l; Some (w * t + p) | _, _ => Some 0 end.
Lemma orient_sg l n0 back e s : surface_of l n0 back e s -> orient e = sg back.
Proof.
  intros (mat & c & d & _ & IN & DP & _). unfold orient. destruct back.
  - destruct DP as [DP|(_ & _ & DP)]; [|discriminate DP]. rewrite place_back in IN by auto. injection IN as <-. cbn [p_offset vz]. destruct (Rlt_dec (- d) 0); [auto|lra].
  - rewrite place_front in IN by (destruct DP as [DP|(_ & DP & _)]; lra). injection IN as <-. cbn [p_offset vz]. destruct (Rlt_dec d 0); [destruct DP as [DP|(_ & DP & _)]; lra|auto].
Qed.

Lemma geo_chain newton l es : forall ss back X1 X2 A1 A2 X y u, row_of l (x_n X) back es ss -> carries_dir back X1 X2 A1 A2 X y u -> allfine ss X ->
  forall i X', nth_error (xrun ss X) i = Some X' ->
  exists e step yl ul y' u' back', nth_error es i = Some e /\ nth_error (sys_propagate newton es (Some y) (Some u) (x_n X) l false) i = Some step /\ st_y step = Some yl /\ st_u step = Some ul /\
    from_normal (e_place e) yl = Some y' /\ from_normal (e_place e) ul = Some u' /\ carries_dir back' X1 X2 A1 A2 X' y' u' /\
    signed_path (map orient (firstn (S i) es)) (firstn (S i) (sys_propagate newton es (Some y) (Some u) (x_n X) l false)) = Some (x_o X' - x_o X).
Proof.
  induction es as [|e es IH]; intros [|s ss] back X1 X2 A1 A2 X y u F2 CA AG i X' N; try contradiction; [destruct i; discriminate N|].
  cbn [row_of] in F2. destruct F2 as [RF F2]. cbn [allfine] in AG. destruct AG as [G AG].
  destruct (lab_step newton l e back s X1 X2 A1 A2 X y u es RF CA G) as (yl & ul & t & i0 & y' & u' & ST & FY & FU & CA' & TE). pose proof (orient_sg l _ back e s RF) as OS.
  rewrite ST. cbn [xrun] in N. destruct i as [|i].
  - cbn [nth_error] in N. assert (X' = next s X) by congruence. subst X'. do 7 eexists. split; [reflexivity|]. split; [reflexivity|]. split; [reflexivity|]. split; [reflexivity|]. split; [exact FY|]. split; [exact FU|]. split; [exact CA'|]. cbn [firstn map signed_path st_t obind]. rewrite OS, TE. f_equal. ring.
  - cbn [nth_error] in N. set (Xn := next s X) in *. assert (EN : x_n Xn = sf_n s) by reflexivity. rewrite <- EN in F2 |- *.
    destruct (IH ss _ X1 X2 A1 A2 Xn y' u' F2 CA' AG i X' N) as (e' & step & yl2 & ul2 & y2 & u2 & b2 & S0 & S1 & S2 & S3 & S4 & S5 & S6 & S7).
    exists e', step, yl2, ul2, y2, u2, b2. split; [exact S0|]. split; [exact S1|]. do 5 (split; [assumption|]). change (firstn (S (S i)) (?a :: ?b)) with (a :: firstn (S i) b). cbn [map signed_path st_t obind]. rewrite S7. cbn [obind]. rewrite OS, TE. f_equal. ring.
Qed.

Lemma iter_units m : (2 <= m)%nat -> nth_error (simplex_iter 3 m) 1 = Some [1; 0; 0]%nat /\ nth_error (simplex_iter 3 m) 2 = Some [0; 1; 0]%nat /\ nth_error (simplex_iter 3 m) 3 = Some [0; 0; 1]%nat /\ (4 <= simplex_size 3 m)%nat.
Proof.
  intros M2. rewrite <- (simplex_size_length 3 m) by (auto using H3). destruct m as [|[|k]]; [lia|lia|]. cbn [simplex_iter seq]. cbn. repeat split; lia.
Qed.
Section Simplex.
Variables (m : nat) (idx : itable) (jdx : list (list nat)) (abi : list row).
Hypothesis Hm : (1 <= m)%nat.
Hypothesis Hs : (Z.of_nat (simplex_size 3 m) <= 65536)%Z.
Hypothesis Hi : simplex_idx 3 m = Some (idx, jdx, abi).
Notation q := (simplex_size 3 m).

Lemma poly_chain l es : forall ss back st F, row_of l (ps_n st) back es ss -> tstate m F st -> on_axis (F origin) ->
  exists sts, poly_from abi m q es l st = Some sts /\ length sts = length es /\ near (fun x => allfine ss (F x)) /\
    forall i st', nth_error sts i = Some st' -> tstate m (fun x => nth i (xrun ss (F x)) xdefault) st'.
Proof.
  induction es as [|e es IH]; intros [|s ss] back st F F2 T AX; try contradiction.
  - exists []. split; [reflexivity|]. split; [reflexivity|]. split; [apply near_all; cbn; auto|]. intros [|i] st' H; discriminate H.
  - cbn [row_of] in F2. destruct F2 as [RF F2]. pose proof RF as (mat & c & d & K & IN & DP & GM & MU & NP & EC & ED).
    destruct (step_taylor m idx jdx abi Hm Hs Hi e mat (Surf c 0 None false) l (sf_n s) (sf_mu s) F st K eq_refl GM T AX) as (st' & PP & T' & AX' & G1 & G2).
    assert (OF : vz (p_offset (e_place e)) = sf_d s /\ c * sign (vz (p_offset (e_place e))) = sf_c s).
    { rewrite EC, ED. destruct back; unfold sg.
      - destruct DP as [DP|(_ & _ & DP)]; [|discriminate DP]. rewrite place_back in IN by auto. injection IN as <-. cbn [p_offset vz]. split; [ring|]. unfold sign. destruct (Rlt_dec 0 (- d)); [lra|]. destruct (Rlt_dec (- d) 0); [ring|lra].
      - rewrite place_front in IN by (destruct DP as [DP|(_ & DP & _)]; lra). injection IN as <-. cbn [p_offset vz]. split; [ring|]. unfold sign. destruct DP as [DP|(DP & _ & _)]; [destruct (Rlt_dec 0 d); [ring|lra]|rewrite DP; ring]. }
    destruct OF as [OF OC]. cbn [s_c] in *. rewrite OF in *. rewrite OC in *.
    assert (N' : ps_n st' = sf_n s) by (rewrite <- (ts_n _ _ _ T' origin); reflexivity).
    destruct (IH ss _ st' _ ltac:(rewrite N'; exact F2) T' AX') as (sts & PF & L & AG & TS). exists (st' :: sts). cbn [poly_from]. rewrite PP. cbn [obind]. rewrite PF. cbn [obind]. split; [auto|]. split; [cbn; auto|]. split.
    + generalize (near_and _ _ AG (near_and _ _ G1 G2)). apply near_imp. intros x (A & (B1 & B2 & B3 & B4) & B5). cbn [allfine]. split; [|exact A]. repeat split; auto. destruct B5; lra.
    + intros [|i] s' H; cbn [nth_error] in H.
      * assert (s' = st') by congruence. subst. exact T'.
      * apply TS; auto.
Qed.

(** the launched bundle *)
Definition xstart (pos n : R) (x : pt) : xst := XS pos n (fst (fst x)) (snd (fst x)) (snd x) 1 0 0 1 0.
Lemma start_taylor pos n st : (2 <= m)%nat -> poly_rays q pos n = Some st -> tstate m (xstart pos n) st.
Proof.
  intros M2 H. destruct (iter_units m M2) as (I1 & I2 & I3 & Q4). unfold poly_rays in H. destruct (Nat.ltb_spec q 4); [lia|]. injection H as <-.
  constructor; cbn [x_f x_n x_r x_p x_k x_s x_t x_v x_w x_o xstart ps_f ps_n ps_r ps_p ps_k ps_s ps_t ps_v ps_w ps_o]; try apply taylor_zero; try apply (taylor_const m Hm Hs); auto.
  - refine (taylor_ext m _ _ _ _ (taylor_unit m Hm Hs 1 _ 1 I1)). apply near_all. intros x. cbn. ring.
  - refine (taylor_ext m _ _ _ _ (taylor_unit m Hm Hs 2 _ 1 I2)). apply near_all. intros x. cbn. ring.
  - refine (taylor_ext m _ _ _ _ (taylor_unit m Hm Hs 3 _ 1 I3)). apply near_all. intros x. cbn. ring.
Qed.
End Simplex.

(** * statements *)
(** two quantities depending on the ray with start point (X1, X2) and slopes (A1, A2) are defined for all rays
    near the axis and differ there by a term of order [k] *)
Definition within (k : nat) (f g : R -> R -> R -> R -> option R) : Prop :=
  exists C delta, 0 < delta /\ forall h X1 X2 A1 A2, h < delta -> Rabs X1 <= h -> Rabs X2 <= h -> Rabs A1 <= h -> Rabs A2 <= h ->
    exists a b, f X1 X2 A1 A2 = Some a /\ g X1 X2 A1 A2 = Some b /\ Rabs (a - b) <= C * h ^ k.
(** the ray through (X1, X2, pos) with slopes A1, A2 *)
Definition exact newton (es : list element) (pos n l X1 X2 A1 A2 : R) : list step :=
  let N := sqrt (1 + A1 ^ 2 + A2 ^ 2) in
  geo_trace newton es (V X1 X2 pos) (V (A1 / N) (A2 / N) (1 / N)) n l false.
(** position and direction at element [i], in a frame parallel to that of the first element *)
Definition exact_y newton es pos n l (i : nat) (c : vec -> R) (X1 X2 A1 A2 : R) : option R :=
  do e <- nth_error es i; do s <- nth_error (exact newton es pos n l X1 X2 A1 A2) i; do y <- st_y s; do y <- from_normal (e_place e) y; Some (c y).
Definition exact_slope newton es pos n l (i : nat) (c : vec -> R) (X1 X2 A1 A2 : R) : option R :=
  do e <- nth_error es i; do s <- nth_error (exact newton es pos n l X1 X2 A1 A2) i; do u <- st_u s; do u <- from_normal (e_place e) u; fdiv (c u) (vz u).
Definition exact_path newton es pos n l (ws : list R) (i : nat) (X1 X2 A1 A2 : R) : option R :=
  if (i <? length (exact newton es pos n l X1 X2 A1 A2))%nat then signed_path (firstn (S i) ws) (firstn (S i) (exact newton es pos n l X1 X2 A1 A2)) else None.
(** value of a polynomial at the invariants of the ray *)
Definition value (jdx : list (list nat)) (a : list R) (X1 X2 A1 A2 : R) : option R :=
  simplex_eval R 0 Rplus Rmult jdx a [X1 ^ 2 + X2 ^ 2; A1 ^ 2 + A2 ^ 2; X1 * A1 + X2 * A2].
Definition combine1 jdx (a b : list R) (X1 X2 A1 A2 : R) : option R :=
  do s <- value jdx a X1 X2 A1 A2; do t <- value jdx b X1 X2 A1 A2; Some (s * X1 + t * A1).
Definition combine2 jdx (a b : list R) (X1 X2 A1 A2 : R) : option R :=
  do s <- value jdx a X1 X2 A1 A2; do t <- value jdx b X1 X2 A1 A2; Some (s * X2 + t * A2).

Definition ray_pt (X1 X2 A1 A2 : R) : pt := (X1 ^ 2 + X2 ^ 2, A1 ^ 2 + A2 ^ 2, X1 * A1 + X2 * A2).
Lemma sq_le h x : Rabs x <= h -> x ^ 2 <= h ^ 2.
Proof. intros H. rewrite <- (pow2_abs x). apply pow_incr. split; [apply Rabs_pos|auto]. Qed.
Lemma size_ray h X1 X2 A1 A2 : Rabs X1 <= h -> Rabs X2 <= h -> Rabs A1 <= h -> Rabs A2 <= h -> size (ray_pt X1 X2 A1 A2) <= 6 * h ^ 2.
Proof.
  intros H1 H2 H4 H5. apply sq_le in H1, H2, H4, H5. unfold size, ray_pt. cbn [fst snd]. rewrite (Rabs_right (X1 ^ 2 + X2 ^ 2)) by nra. rewrite (Rabs_right (A1 ^ 2 + A2 ^ 2)) by nra.
  assert (Rabs (X1 * A1 + X2 * A2) <= 2 * h ^ 2) by (apply Rabs_le; pose proof (pow2_ge_0 (X1 - A1)); pose proof (pow2_ge_0 (X2 - A2)); pose proof (pow2_ge_0 (X1 + A1)); pose proof (pow2_ge_0 (X2 + A2)); split; lra). lra.
Qed.
Lemma near_ray (P : pt -> Prop) : near P -> exists delta, 0 < delta /\ forall h X1 X2 A1 A2, h < delta -> Rabs X1 <= h -> Rabs X2 <= h -> Rabs A1 <= h -> Rabs A2 <= h -> P (ray_pt X1 X2 A1 A2).
Proof.
  intros (d & D & H). exists (Rmin 1 (d / 6)). split; [apply Rmin_pos; lra|]. intros h X1 X2 A1 A2 L H1 H2 H4 H5. apply H. pose proof (size_ray h X1 X2 A1 A2 H1 H2 H4 H5).
  pose proof (Rmin_l 1 (d / 6)). pose proof (Rmin_r 1 (d / 6)). pose proof (Rabs_pos X1). nra.
Qed.

(** what the elements after the first one must be: centred spheres and planes, not tilted, refracting, reflecting or
    without material, at distances that have the sign of the direction of the light ([back]: negative); spheres not at
    the vertex of the previous element *)
Fixpoint lens (l : R) (back : bool) (es : list element) : Prop :=
  match es with
  | [] => True
  | e :: es => exists mat c d, e_kind e = Sph mat (Surf c 0 None false) /\ init (if back then - d else d) ez v0 None = Some (e_place e) /\
      (0 < d \/ (c = 0 /\ d = 0 /\ back = false)) /\
      match mat with None => lens l back es | Some mt => if m_mirror mt then lens l (negb back) es else 0 < m_index mt l /\ lens l back es end
  end.
Lemma lens_row l es : forall back n0, lens l back es -> 0 < n0 -> exists ss, row_of l n0 back es ss.
Proof.
  assert (M1 : is_mirror (-1) = true) by (unfold is_mirror; destruct (Req_EM_T (-1) (-1)); [auto|lra]). assert (MP : forall x, 0 < x -> is_mirror x = false) by (intros x Hx; unfold is_mirror; destruct (Req_EM_T x (-1)); [lra|auto]).
  induction es as [|e es IH]; intros back n0 H N0; [exists []; exact I|]. cbn [lens] in H. destruct H as (mat & c & d & K & IN & DP & H). destruct mat as [mt|]; [destruct (m_mirror mt) eqn:MM|].
  - destruct (IH (negb back) n0 H N0) as (ss & R). exists (SF (sg back * c) (sg back * d) n0 (-1) :: ss). cbn [row_of sf_n sf_mu]. rewrite M1. split; [|destruct back; exact R]. exists (Some mt), c, d. unfold get_n_mu. rewrite MM. cbn [sf_n sf_mu sf_c sf_d]. repeat split; auto.
  - destruct H as [NI H]. destruct (IH back _ H NI) as (ss & R). assert (0 < n0 / m_index mt l) by (apply Rdiv_lt_0_compat; auto). exists (SF (sg back * c) (sg back * d) (m_index mt l) (n0 / m_index mt l) :: ss). cbn [row_of sf_n sf_mu]. rewrite MP by auto. split; [|destruct back; exact R]. exists (Some mt), c, d. unfold get_n_mu. rewrite MM, fdiv_some by lra. cbn [sf_n sf_mu sf_c sf_d]. repeat split; auto.
  - destruct (IH back n0 H N0) as (ss & R). exists (SF (sg back * c) (sg back * d) n0 1 :: ss). cbn [row_of sf_n sf_mu]. rewrite MP by lra. split; [|destruct back; exact R]. exists None, c, d. cbn [get_n_mu sf_n sf_mu sf_c sf_d]. repeat split; auto. left. lra.
Qed.

Section Final.
Variables (m : nat) (idx : itable) (jdx : list (list nat)) (abi : list row).
Hypothesis Hm : (2 <= m)%nat.
Hypothesis Hs : (Z.of_nat (simplex_size 3 m) <= 65536)%Z.
Hypothesis Hi : simplex_idx 3 m = Some (idx, jdx, abi).

Lemma value_eq a X1 X2 A1 A2 : length a = simplex_size 3 m -> value jdx a X1 X2 A1 A2 = Some (peval m a (ray_pt X1 X2 A1 A2)).
Proof.
  intros L. assert (Hen : simplex_enum 3 m = Some (idx, jdx)) by (apply (simplex_idx_inv _ _ _ _ _ Hi)). unfold value, peval. apply (eval_value R 0 1 Rplus Rmult Rminus Ropp RTheory 3 m idx jdx); auto.
Qed.
Lemma taylor_ray F a : taylor m F a -> exists C delta, 0 <= C /\ 0 < delta /\ forall h X1 X2 A1 A2, h < delta -> Rabs X1 <= h -> Rabs X2 <= h -> Rabs A1 <= h -> Rabs A2 <= h ->
  exists v, value jdx a X1 X2 A1 A2 = Some v /\ Rabs (F (ray_pt X1 X2 A1 A2) - v) <= C * h ^ (2 * m).
Proof.
  intros (L & C & N). destruct (near_ray _ N) as (d & D & H). exists (Rabs C * 6 ^ m), d. split; [apply Rmult_le_pos; [apply Rabs_pos|apply pow_le; lra]|]. split; [auto|]. intros h X1 X2 A1 A2 HL H1 H2 H4 H5. eexists. split; [apply value_eq; auto|].
  specialize (H h X1 X2 A1 A2 HL H1 H2 H4 H5). cbv beta in H. eapply Rle_trans; [exact H|]. rewrite pow_mult, Rmult_assoc, <- Rpow_mult_distr.
  apply Rle_trans with (Rabs C * size (ray_pt X1 X2 A1 A2) ^ m).
  - apply Rmult_le_compat_r; [apply pow_le, size_pos|apply Rle_abs].
  - apply Rmult_le_compat_l; [apply Rabs_pos|]. apply pow_incr. split; [apply size_pos|apply size_ray; auto].
Qed.

Lemma trace_origin l e0 es ss pos n0 : row_of l n0 false es ss -> 0 < n0 ->
  exists sts, poly_trace abi m (simplex_size 3 m) (e0 :: es) l pos n0 = Some sts /\ length sts = S (length es) /\
  forall i st, nth_error sts (S i) = Some st -> let X := nth i (xrun ss (xstart pos n0 origin)) xdefault in
    nth 0 (ps_f st) 0 = x_f X /\ ps_n st = x_n X /\ nth 0 (ps_s st) 0 = x_s X /\ nth 0 (ps_t st) 0 = x_t X /\ nth 0 (ps_v st) 0 = x_v X /\ nth 0 (ps_w st) 0 = x_w X.
Proof.
  intros F2 N0. assert (Hm1 : (1 <= m)%nat) by lia. destruct (iter_units m Hm) as (_ & _ & _ & Q4).
  assert (PR : exists st0, poly_rays (simplex_size 3 m) pos n0 = Some st0 /\ ps_n st0 = n0). { unfold poly_rays. destruct (Nat.ltb_spec (simplex_size 3 m) 4); [lia|]. eexists. split; reflexivity. }
  destruct PR as (st0 & PR & PN). pose proof (start_taylor m Hm1 Hs pos n0 st0 Hm PR) as T0.
  assert (AX : on_axis (xstart pos n0 origin)) by (repeat split).
  destruct (poly_chain m idx jdx abi Hm1 Hs Hi l es ss false st0 _ ltac:(rewrite PN; auto) T0 AX) as (sts & PF & L & AG & TS).
  exists (st0 :: sts). unfold poly_trace. rewrite PR. cbn [obind tl]. rewrite PF. cbn [obind]. split; [auto|]. split; [cbn; auto|]. intros i st NE. cbn [nth_error] in NE.
  destruct (TS i st NE) as [Tf Tr Tp Tk Ts Tt Tv Tw To Tn]. cbv zeta. rewrite (taylor_at m Hm1 _ _ Tf), (taylor_at m Hm1 _ _ Ts), (taylor_at m Hm1 _ _ Tt), (taylor_at m Hm1 _ _ Tv), (taylor_at m Hm1 _ _ Tw), <- (Tn origin). repeat split.
Qed.
Lemma core newton l e0 es pos n0 : lens l false es -> p_rotated (e_place e0) = false -> 0 < n0 ->
  exists sts, poly_trace abi m (simplex_size 3 m) (e0 :: es) l pos n0 = Some sts /\ length sts = S (length es) /\
  exists delta, 0 < delta /\ forall i st, nth_error sts (S i) = Some st -> exists F, tstate m F st /\
    forall h X1 X2 A1 A2, h < delta -> Rabs X1 <= h -> Rabs X2 <= h -> Rabs A1 <= h -> Rabs A2 <= h ->
    exists e step yl ul y u back, nth_error es i = Some e /\ nth_error (exact newton (e0 :: es) pos n0 l X1 X2 A1 A2) (S i) = Some step /\ st_y step = Some yl /\ st_u step = Some ul /\
      from_normal (e_place e) yl = Some y /\ from_normal (e_place e) ul = Some u /\ carries_dir back X1 X2 A1 A2 (F (ray_pt X1 X2 A1 A2)) y u /\
      signed_path (firstn (S (S i)) (map orient (e0 :: es))) (firstn (S (S i)) (exact newton (e0 :: es) pos n0 l X1 X2 A1 A2)) = Some (x_o (F (ray_pt X1 X2 A1 A2))).
Proof.
  intros FA R0 N0. destruct (lens_row l es false n0 FA N0) as (ss & F2). assert (Hm1 : (1 <= m)%nat) by lia. destruct (iter_units m Hm) as (_ & _ & _ & Q4).
  assert (PR : exists st0, poly_rays (simplex_size 3 m) pos n0 = Some st0 /\ ps_n st0 = n0). { unfold poly_rays. destruct (Nat.ltb_spec (simplex_size 3 m) 4); [lia|]. eexists. split; reflexivity. }
  destruct PR as (st0 & PR & PN). pose proof (start_taylor m Hm1 Hs pos n0 st0 Hm PR) as T0.
  assert (AX : on_axis (xstart pos n0 origin)) by (repeat split).
  destruct (poly_chain m idx jdx abi Hm1 Hs Hi l es ss false st0 _ ltac:(rewrite PN; auto) T0 AX) as (sts & PF & L & AG & TS).
  exists (st0 :: sts). unfold poly_trace. rewrite PR. cbn [obind tl]. rewrite PF. cbn [obind]. split; [auto|]. split; [cbn; auto|].
  destruct (near_ray _ AG) as (d & D & H). exists d. split; [auto|]. intros i st NE. cbn [nth_error] in NE. exists (fun x => nth i (xrun ss (xstart pos n0 x)) xdefault). split; [auto|].
  intros h X1 X2 A1 A2 HL H1 H2 H4 H5. specialize (H h X1 X2 A1 A2 HL H1 H2 H4 H5). cbv beta in H. set (X := xstart pos n0 (ray_pt X1 X2 A1 A2)) in *.
  assert (LL : (i < length (xrun ss X))%nat). { rewrite xrun_length. rewrite <- (row_length _ _ _ _ _ F2). assert (i < length sts)%nat by (apply nth_error_Some; congruence). lia. }
  pose proof (nth_error_nth' (xrun ss X) xdefault LL) as NX.
  set (N := sqrt (1 + A1 ^ 2 + A2 ^ 2)).
  assert (CA : carries X1 X2 A1 A2 X (V X1 X2 pos) (V (A1 / N) (A2 / N) (1 / N))).
  { assert (EN : N = sqrt (x_p X + 1)) by (unfold N, X, xstart, ray_pt; cbn [x_p fst snd]; f_equal; ring). rewrite EN. unfold carries, X, xstart, ray_pt. cbn [x_f x_n x_r x_p x_k x_s x_t x_v x_w x_o fst snd]. repeat apply conj; try (apply vec_eq; cbn [vx vy vz]; try ring; f_equal; ring); ring. }
  assert (CD : carries_dir false X1 X2 A1 A2 X (V X1 X2 pos) (V (A1 / N) (A2 / N) (1 / N))) by (eexists; split; [exact CA|reflexivity]).
  destruct (geo_chain newton l es ss false X1 X2 A1 A2 X _ _ F2 CD H i _ NX) as (e & step & yl & ul & y & u & b & S0 & S1 & S2 & S3 & S4 & S5 & S6 & S7).
  exists e, step, yl, ul, y, u, b. unfold exact. fold N. unfold geo_trace. assert (FN0 : forall v, from_normal (e_place e0) v = Some v) by (intros v; unfold from_normal, do_rotate; rewrite R0; reflexivity). rewrite !FN0. change (x_n X) with n0 in S1, S7. split; [exact S0|]. split; [exact S1|]. do 5 (split; [assumption|]).
  cbn [map]. change (firstn (S (S i)) (?a :: ?b)) with (a :: firstn (S i) b). cbn [signed_path st_t obind]. rewrite firstn_map. rewrite S7. cbn [obind]. f_equal. change (x_o X) with 0. ring.
Qed.

Lemma lin h X A s t s' t' Cs Ct k : Rabs X <= h -> Rabs A <= h -> Rabs (s - s') <= Cs * h ^ k -> Rabs (t - t') <= Ct * h ^ k ->
  Rabs (s * X + t * A - (s' * X + t' * A)) <= (Cs + Ct) * h ^ (k + 1).
Proof.
  intros HX HA HS HT. replace (s * X + t * A - (s' * X + t' * A)) with ((s - s') * X + (t - t') * A) by ring. eapply Rle_trans; [apply Rabs_triang|]. rewrite !Rabs_mult, pow_add, pow_1.
  assert (Rabs (s - s') * Rabs X <= Cs * h ^ k * h) by (apply Rmult_le_compat; auto using Rabs_pos). assert (Rabs (t - t') * Rabs A <= Ct * h ^ k * h) by (apply Rmult_le_compat; auto using Rabs_pos). lra.
Qed.
Lemma sqrt1 b X1 X2 A1 A2 X y u : carries_dir b X1 X2 A1 A2 X y u -> fdiv (vx u) (vz u) = Some (x_v X * X1 + x_w X * A1) /\ fdiv (vy u) (vz u) = Some (x_v X * X2 + x_w X * A2).
Proof.
  intros (u' & (_ & -> & _ & P & _) & ->). assert (0 < x_p X + 1) by (rewrite P; pose proof (pow2_ge_0 (x_v X * X1 + x_w X * A1)); pose proof (pow2_ge_0 (x_v X * X2 + x_w X * A2)); lra). assert (0 < sqrt (x_p X + 1)) by (apply sqrt_lt_R0; auto).
  assert (0 < 1 / sqrt (x_p X + 1)) by (apply Rdiv_lt_0_compat; lra). destruct b; unfold vmul3; cbn [vx vy vz]; rewrite !fdiv_some by lra; split; f_equal; field; lra.
Qed.
Ltac bounds := match goal with H : _ < Rmin _ _ |- _ => apply Rmin_Rgt_l in H; destruct H | H : Rmin _ _ > _ |- _ => apply Rmin_Rgt_l in H; destruct H end.

Lemma trace_taylor : forall newton l e0 es pos n0, lens l false es -> p_rotated (e_place e0) = false -> 0 < n0 ->
  exists sts, poly_trace abi m (simplex_size 3 m) (e0 :: es) l pos n0 = Some sts /\ length sts = S (length es) /\
  forall i st, nth_error sts (S i) = Some st ->
    within (2 * m + 1) (exact_y newton (e0 :: es) pos n0 l (S i) vx) (combine1 jdx (ps_s st) (ps_t st)) /\
    within (2 * m + 1) (exact_y newton (e0 :: es) pos n0 l (S i) vy) (combine2 jdx (ps_s st) (ps_t st)) /\
    within (2 * m + 1) (exact_slope newton (e0 :: es) pos n0 l (S i) vx) (combine1 jdx (ps_v st) (ps_w st)) /\
    within (2 * m + 1) (exact_slope newton (e0 :: es) pos n0 l (S i) vy) (combine2 jdx (ps_v st) (ps_w st)) /\
    within (2 * m) (exact_y newton (e0 :: es) pos n0 l (S i) vz) (value jdx (ps_f st)) /\
    within (2 * m) (exact_path newton (e0 :: es) pos n0 l (map orient (e0 :: es)) (S i)) (value jdx (ps_o st)).
Proof.
  intros newton l e0 es pos n0 F2 R0 N0. destruct (core newton l e0 es pos n0 F2 R0 N0) as (sts & PT & L & d0 & D0 & H). exists sts. split; [auto|]. split; [auto|].
  intros i st NE. destruct (H i st NE) as (F & T & G). destruct T as [Tf Tr Tp Tk Ts Tt Tv Tw To Tn].
  destruct (taylor_ray _ _ Tf) as (Cf & df & _ & Df & Hf). destruct (taylor_ray _ _ Ts) as (Cs & ds & _ & Ds & Hs'). destruct (taylor_ray _ _ Tt) as (Ct & dt & _ & Dt & Ht).
  destruct (taylor_ray _ _ Tv) as (Cv & dv & _ & Dv & Hv). destruct (taylor_ray _ _ Tw) as (Cw & dw & _ & Dw & Hw). destruct (taylor_ray _ _ To) as (Co & dO & _ & Do & Ho). clear Tf Tr Tp Tk Ts Tt Tv Tw To Tn H.
  repeat split.
  1: exists (Cs + Ct), (Rmin d0 (Rmin ds dt)). 2: exists (Cs + Ct), (Rmin d0 (Rmin ds dt)). 3: exists (Cv + Cw), (Rmin d0 (Rmin dv dw)). 4: exists (Cv + Cw), (Rmin d0 (Rmin dv dw)). 5: exists Cf, (Rmin d0 df). 6: exists Co, (Rmin d0 dO).
  all: split; [repeat apply Rmin_pos; auto|]; intros h X1 X2 A1 A2 HL H1 H2 H4 H5; bounds; try bounds; destruct (G h X1 X2 A1 A2 ltac:(lra) H1 H2 H4 H5) as (e & step & yl & ul & y & u & bk & E0 & E1 & E2 & E3 & E4 & E5 & CA & EP); change (nth_error es i) with (nth_error (e0 :: es) (S i)) in E0.
  1, 2: destruct (Hs' h X1 X2 A1 A2 ltac:(lra) H1 H2 H4 H5) as (v & V1 & V2); destruct (Ht h X1 X2 A1 A2 ltac:(lra) H1 H2 H4 H5) as (w & W1 & W2); unfold exact_y, combine1, combine2; rewrite E0, E1, V1, W1; cbn [obind]; rewrite E2; cbn [obind]; rewrite E4; cbn [obind];
    do 2 eexists; split; [reflexivity|]; split; [reflexivity|]; destruct CA as (u' & (-> & _) & _); cbn [vx vy]; apply lin; auto.
  1, 2: destruct (Hv h X1 X2 A1 A2 ltac:(lra) H1 H2 H4 H5) as (v & V1 & V2); destruct (Hw h X1 X2 A1 A2 ltac:(lra) H1 H2 H4 H5) as (w & W1 & W2); unfold exact_slope, combine1, combine2; rewrite E0, E1, V1, W1; cbn [obind]; rewrite E3; cbn [obind]; rewrite E5; cbn [obind];
    destruct (sqrt1 _ _ _ _ _ _ _ _ CA) as (Q1 & Q2); rewrite ?Q1, ?Q2; do 2 eexists; split; [reflexivity|]; split; [reflexivity|]; apply lin; auto.
  - destruct (Hf h X1 X2 A1 A2 ltac:(lra) H1 H2 H4 H5) as (v & V1 & V2). unfold exact_y. rewrite E0, E1, V1. cbn [obind]. rewrite E2. cbn [obind]. rewrite E4. cbn [obind]. do 2 eexists. split; [reflexivity|]. split; [reflexivity|]. destruct CA as (u' & (-> & _) & _). exact V2.
  - destruct (Ho h X1 X2 A1 A2 ltac:(lra) H1 H2 H4 H5) as (v & V1 & V2). unfold exact_path. assert ((S i < length (exact newton (e0 :: es) pos n0 l X1 X2 A1 A2))%nat) as LT by (apply nth_error_Some; congruence). apply Nat.ltb_lt in LT. rewrite LT, EP, V1. do 2 eexists. split; [reflexivity|]. split; [reflexivity|]. exact V2.
Qed.

(** ** finite objects *)
Lemma value_at a X1 X2 A1 A2 : length a = simplex_size 3 m -> value jdx a X1 X2 A1 A2 = Some (pvalue R 0 1 Rplus Rmult 3 m (coef R 0 3 m a) [X1 ^ 2 + X2 ^ 2; A1 ^ 2 + A2 ^ 2; X1 * A1 + X2 * A2]).
Proof. intros L. rewrite value_eq by auto. reflexivity. Qed.
Definition swap (e : list nat) : list nat := [nth 1 e O; nth 0 e O; nth 2 e O].
Lemma swap_iter e : In e (simplex_iter 3 m) -> In (swap e) (simplex_iter 3 m) /\ swap (swap e) = e.
Proof.
  intros H. apply simplex_iter_spec in H; [|lia]. destruct H as [L S]. destruct e as [|a [|b [|c [|? ?]]]]; try discriminate L. unfold swap. cbn [nth]. split; [|auto]. apply simplex_iter_spec; [lia|]. cbn [length list_sum fold_right] in *. lia.
Qed.
Lemma swapped a x p k : length a = simplex_size 3 m ->
  let b := map (fun i => nth i a 0) (map (fun e => idx (swap e)) jdx) in
  length b = simplex_size 3 m /\ pvalue R 0 1 Rplus Rmult 3 m (coef R 0 3 m b) [x; p; k] = pvalue R 0 1 Rplus Rmult 3 m (coef R 0 3 m a) [p; x; k].
Proof.
  intros LA b. assert (Hen : simplex_enum 3 m = Some (idx, jdx)) by (apply (simplex_idx_inv _ _ _ _ _ Hi)). assert (Hm1 : (1 <= m)%nat) by lia.
  assert (J : jdx = simplex_iter 3 m) by (apply (jdx_iter 3 m H3 Hm1 Hs idx jdx Hen)). assert (LJ : length jdx = simplex_size 3 m) by (rewrite J; apply simplex_size_length; auto using H3).
  split; [unfold b; rewrite !map_length; auto|]. unfold pvalue.
  transitivity (ksum R 0 Rplus (fun e => coef R 0 3 m a (swap e) * mono R 1 Rmult [p; x; k] (swap e)) (simplex_iter 3 m)).
  - apply ksum_ext. intros e He. destruct (swap_iter e He) as [Hsw _]. assert (He' := He). apply simplex_iter_spec in He'; [|lia]. destruct He' as [L S]. assert (Hsw' := Hsw). apply simplex_iter_spec in Hsw'; [|lia]. destruct Hsw' as [L' S'].
    rewrite (coef_idx R 0 3 m idx jdx abi H3 Hm1 Hs Hi a (swap e) L' S'). f_equal.
    + destruct (In_nth_error _ _ He) as (j & Ej). unfold coef. rewrite (lookup_nth R 0 _ _ j e (simplex_iter_NoDup 3 m) Ej). apply nth_error_nth. unfold b. rewrite map_map, J. exact (map_nth_error (fun e => nth (idx (swap e)) a 0) j _ Ej).
    + destruct e as [|u [|v [|w [|? ?]]]]; try discriminate L. unfold swap. cbn. ring.
  - rewrite <- (ksum_map R 0 Rplus (fun e => coef R 0 3 m a e * mono R 1 Rmult [p; x; k] e) swap). apply (ksum_perm R 0 1 Rplus Rmult Rminus Ropp RTheory). apply NoDup_Permutation_bis.
    + assert (N := simplex_iter_NoDup 3 m). assert (IN : forall e, In e (simplex_iter 3 m) -> swap (swap e) = e) by (intros e He; apply swap_iter; auto). revert N IN. generalize (simplex_iter 3 m). intros l N IN. induction N as [|e l NI N IH]; cbn [map]; constructor.
      * intros H. apply in_map_iff in H. destruct H as (e' & E & H). apply NI. rewrite <- (IN e), <- E, IN; cbn; auto.
      * apply IH. intros e' H. apply IN. cbn. auto.
    + rewrite map_length. auto.
    + intros e H. apply in_map_iff in H. destruct H as (e' & <- & H). apply swap_iter; auto.
Qed.

Hypothesis Hb : forall e, length e = 3%nat -> (list_sum e < m)%nat -> (Z.of_nat (multinom e) < 65536)%Z.
Lemma scaled_length u v a b : length a = simplex_size 3 m -> length b = simplex_size 3 m -> length (rvadd (rvscale u a) (rvscale v b)) = simplex_size 3 m.
Proof. intros A B. unfold rvadd. rewrite vadd_length; unfold rvscale, vscale; rewrite !map_length; congruence. Qed.
Lemma peval_scaled u v a b x : length a = simplex_size 3 m -> length b = simplex_size 3 m -> peval m (rvadd (rvscale u a) (rvscale v b)) x = u * peval m a x + v * peval m b x.
Proof.
  intros A B. unfold peval, pvalue. rewrite <- !(ksum_scale R 0 1 Rplus Rmult Rminus Ropp RTheory), <- (ksum_add R 0 1 Rplus Rmult Rminus Ropp RTheory). apply ksum_ext. intros e _. unfold rvadd, vadd. rewrite (coef_zip m Rplus) by (try ring; unfold rvscale, vscale; rewrite !map_length; congruence).
  unfold rvscale, vscale. rewrite !(coef_map m) by ring. ring.
Qed.
Lemma transformed a r s c : length a = simplex_size 3 m -> exists N, forall fuel, (N <= fuel)%nat -> exists b,
  simplex_transform R 0 1 Rplus Rmult fuel idx jdx a [[r ^ 2; 0; 0]; [s ^ 2; c ^ 2; 2 * s * c]; [r * s; 0; r * c]] = Some b /\ length b = simplex_size 3 m /\
  forall x1 x2 f1 f2, peval m b (ray_pt x1 x2 f1 f2) = peval m a (ray_pt (r * x1) (r * x2) (s * x1 + c * f1) (s * x2 + c * f2)).
Proof.
  intros LA. assert (Hen : simplex_enum 3 m = Some (idx, jdx)) by (apply (simplex_idx_inv _ _ _ _ _ Hi)).
  set (t := [[r ^ 2; 0; 0]; [s ^ 2; c ^ 2; 2 * s * c]; [r * s; 0; r * c]]).
  destruct (C07_transform_is_substitution R 0 1 Rplus Rmult Rminus Ropp RTheory 3 m idx jdx H3 ltac:(lia) Hs Hen Hb a t LA eq_refl ltac:(repeat constructor)) as (N & HN).
  exists N. intros fuel Hf. destruct (HN fuel Hf) as (b & H1 & H2 & H4). exists b. split; [auto|]. split; [auto|]. intros. specialize (H4 (args (ray_pt x1 x2 f1 f2)) eq_refl). 
  assert (E : map (fun r => ksum R 0 Rplus (fun xy => fst xy * snd xy) (combine r (args (ray_pt x1 x2 f1 f2)))) t = args (ray_pt (r * x1) (r * x2) (s * x1 + c * f1) (s * x2 + c * f2))).
  { unfold args, ray_pt, t. cbn [fst snd map combine ksum fold_right]. f_equal; [ring|]. f_equal; [ring|]. f_equal. ring. }
  rewrite E in H4. exact H4.
Qed.

(** [transform] and [evaluate] for a finite object: the position of the ray that starts at X with slope A *)
Lemma finite_evaluate c st r a c' : length (ps_s st) = simplex_size 3 m -> length (ps_t st) = simplex_size 3 m ->
  pupil_radius (cj_pupil c) = Some r -> pupil_slope (cj_pupil c) = Some a -> conj_slope c = Some c' ->
  exists N, forall fuel, (N <= fuel)%nat -> forall x1 x2 f1 f2,
  let start x f := if Rlt_dec (Rabs c') (Rabs a) then - cj_val c * f else r * x in
  let X1 := start x1 f1 in let X2 := start x2 f2 in let A1 := a * x1 + c' * f1 in let A2 := a * x2 + c' * f2 in
  exists e1 e2, poly_evaluate_finite fuel idx jdx c st x1 x2 f1 f2 = Some (e1, e2) /\ combine1 jdx (ps_s st) (ps_t st) X1 X2 A1 A2 = Some e1 /\ combine2 jdx (ps_s st) (ps_t st) X1 X2 A1 A2 = Some e2.
Proof.
  intros LS LT PR PS CS. unfold poly_evaluate_finite, poly_transform. rewrite PR, PS, CS. cbn [obind]. destruct (Rlt_dec (Rabs c') (Rabs a)) as [TE|TE].
  - set (r' := - cj_val c).
    destruct (transformed (rvadd (rvscale r' (ps_s st)) (rvscale c' (ps_t st))) r' c' a (scaled_length _ _ _ _ LS LT)) as (N1 & H1). destruct (transformed (rvadd (rvscale 0 (ps_s st)) (rvscale a (ps_t st))) r' c' a (scaled_length _ _ _ _ LS LT)) as (N2 & H2).
    exists (N1 + N2)%nat. intros fuel Hf x1 x2 f1 f2. cbv zeta. destruct (H1 fuel ltac:(lia)) as (b1 & -> & L1 & E1). destruct (H2 fuel ltac:(lia)) as (b2 & -> & L2 & E2). cbn [obind].
    change (fun e => idx [nth 1 e O; nth 0 e O; nth 2 e O]) with (fun e => idx (swap e)).
    set (B1 := map (fun i => nth i b1 0) (map (fun e => idx (swap e)) jdx)). set (B2 := map (fun i => nth i b2 0) (map (fun e => idx (swap e)) jdx)).
    destruct (swapped b1 (x1 ^ 2 + x2 ^ 2) (f1 ^ 2 + f2 ^ 2) (x1 * f1 + x2 * f2) L1) as [M1 W1]. destruct (swapped b2 (x1 ^ 2 + x2 ^ 2) (f1 ^ 2 + f2 ^ 2) (x1 * f1 + x2 * f2) L2) as [M2 W2]. fold B1 in M1, W1. fold B2 in M2, W2.
    pose proof (value_at B1 x1 x2 f1 f2 M1) as V1. pose proof (value_at B2 x1 x2 f1 f2 M2) as V2. unfold value in V1, V2. rewrite V2. cbn [obind]. rewrite V1. cbn [obind]. rewrite W1, W2.
    assert (K : forall b, pvalue R 0 1 Rplus Rmult 3 m (coef R 0 3 m b) [f1 ^ 2 + f2 ^ 2; x1 ^ 2 + x2 ^ 2; x1 * f1 + x2 * f2] = peval m b (ray_pt f1 f2 x1 x2)).
    { intros b. replace (x1 * f1 + x2 * f2) with (f1 * x1 + f2 * x2) by ring. reflexivity. }
    rewrite !K, E1, E2, !peval_scaled by auto. unfold combine1, combine2. fold r'. rewrite !value_eq by auto. cbn [obind].
    replace (a * x1 + c' * f1) with (c' * f1 + a * x1) by ring. replace (a * x2 + c' * f2) with (c' * f2 + a * x2) by ring.
    do 2 eexists. split; [reflexivity|]. split; f_equal; ring.
  - destruct (transformed (rvadd (rvscale r (ps_s st)) (rvscale a (ps_t st))) r a c' (scaled_length _ _ _ _ LS LT)) as (N1 & H1). destruct (transformed (rvadd (rvscale 0 (ps_s st)) (rvscale c' (ps_t st))) r a c' (scaled_length _ _ _ _ LS LT)) as (N2 & H2).
    exists (N1 + N2)%nat. intros fuel Hf x1 x2 f1 f2. cbv zeta. destruct (H1 fuel ltac:(lia)) as (b1 & -> & L1 & E1). destruct (H2 fuel ltac:(lia)) as (b2 & -> & L2 & E2). cbn [obind].
    pose proof (value_eq b1 x1 x2 f1 f2 L1) as V1. pose proof (value_eq b2 x1 x2 f1 f2 L2) as V2. unfold value in V1, V2. rewrite V1. cbn [obind]. rewrite V2. cbn [obind].
    rewrite E1, E2, !peval_scaled by auto. unfold combine1, combine2. rewrite !value_eq by auto. cbn [obind]. do 2 eexists. split; [reflexivity|]. split; f_equal; ring.
Qed.
End Final.
