(** C43: the polynomial ray trace is the Taylor expansion of the exact ray trace.
    Statement vocabulary ([within], [exact], [exact_y], [exact_slope], [exact_path], [signed_path], [value],
    [combine1], [combine2], [lens]) is in PolyChain.v. *)
From Coq Require Import Reals List Arith ZArith Lia Lra Psatz.
From Verif Require Import Base Vec RotModel PlacementModel ElementModel ParaxialModel PupilModel SimplexModel SimplexPowModel SimplexTransform SimplexComb SimplexEnum SimplexMul SimplexEval PropsTransform PolyModel TaylorProofs PolyProofs PolyChain.
Import ListNotations.
Open Scope R_scope.

(** * agreement with the exact trace *)
Theorem C43_taylor : forall m idx jdx abi, (2 <= m)%nat -> (Z.of_nat (simplex_size 3 m) <= 65536)%Z -> simplex_idx 3 m = Some (idx, jdx, abi) ->
  forall newton l e0 es pos n0, lens l false es -> p_rotated (e_place e0) = false -> 0 < n0 ->
  exists sts, poly_trace abi m (simplex_size 3 m) (e0 :: es) l pos n0 = Some sts /\ length sts = S (length es) /\
  forall i st, nth_error sts (S i) = Some st ->
    within (2 * m + 1) (exact_y newton (e0 :: es) pos n0 l (S i) vx) (combine1 jdx (ps_s st) (ps_t st)) /\
    within (2 * m + 1) (exact_y newton (e0 :: es) pos n0 l (S i) vy) (combine2 jdx (ps_s st) (ps_t st)) /\
    within (2 * m + 1) (exact_slope newton (e0 :: es) pos n0 l (S i) vx) (combine1 jdx (ps_v st) (ps_w st)) /\
    within (2 * m + 1) (exact_slope newton (e0 :: es) pos n0 l (S i) vy) (combine2 jdx (ps_v st) (ps_w st)) /\
    within (2 * m) (exact_y newton (e0 :: es) pos n0 l (S i) vz) (value jdx (ps_f st)) /\
    within (2 * m) (exact_path newton (e0 :: es) pos n0 l (map orient (e0 :: es)) (S i)) (value jdx (ps_o st)).
Proof. intros m idx jdx abi Hm Hs Hi. exact (trace_taylor m idx jdx abi Hm Hs Hi). Qed.
Print Assumptions C43_taylor.

(** a glass singlet, a mirror behind it and a plane reached by the reflected light *)
Definition glass : material := Material (fun _ => 3 / 2) false true.
Definition air : material := Material (fun _ => 1) false false.
Definition mirror : material := Material (fun _ => 1) true false.
Definition at_front (d : R) : placement := Placement d ez (V 0 0 d) v0 true true None None.
Definition at_back (d : R) : placement := Placement d (V 0 0 (-1)) (V 0 0 (- d)) v0 false true (Some half_turn) (Some half_turn).
Definition singlet : list element :=
  [El (at_front 5) (Some 2) (Sph (Some glass) (Surf (/ 10) 0 None false)); El (at_front 1) (Some 2) (Sph (Some air) (Surf (- / 10) 0 None false))].
Definition folded : list element := singlet ++
  [El (at_front 10) (Some 2) (Sph (Some mirror) (Surf (/ 20) 0 None false)); El (at_back 3) (Some 2) (Sph None (Surf 0 0 None false))].
Lemma lens_singlet l : lens l false singlet.
Proof.
  exists (Some glass), (/ 10), 5. split; [reflexivity|]. split; [apply place_front; lra|]. split; [left; lra|]. split; [cbn; lra|].
  exists (Some air), (- / 10), 1. split; [reflexivity|]. split; [apply place_front; lra|]. split; [left; lra|]. split; [cbn; lra|]. exact I.
Qed.
Lemma lens_folded l : lens l false folded.
Proof.
  exists (Some glass), (/ 10), 5. split; [reflexivity|]. split; [apply place_front; lra|]. split; [left; lra|]. split; [cbn; lra|].
  exists (Some air), (- / 10), 1. split; [reflexivity|]. split; [apply place_front; lra|]. split; [left; lra|]. split; [cbn; lra|].
  exists (Some mirror), (/ 20), 10. split; [reflexivity|]. split; [apply place_front; lra|]. split; [left; lra|].
  exists None, 0, 3. split; [reflexivity|]. split; [apply place_back; lra|]. split; [left; lra|]. exact I.
Qed.
Example C43_taylor_example : (2 <= 4)%nat /\ (Z.of_nat (simplex_size 3 4) <= 65536)%Z /\ (exists idx jdx abi, simplex_idx 3 4 = Some (idx, jdx, abi)) /\
  lens 0 false folded /\ p_rotated (at_front 0) = false /\ 0 < 1 /\ length folded = 4%nat.
Proof.
  split; [lia|]. split; [vm_compute; discriminate|]. split; [do 3 eexists; vm_compute; reflexivity|]. split; [apply lens_folded|]. split; [reflexivity|]. split; [lra|reflexivity].
Qed.

(** without reflected light the path is the sum of the lengths *)
Fixpoint total_path (l : list step) : option R :=
  match l with [] => Some 0 | s :: l => do t <- st_t s; do p <- total_path l; Some (t + p) end.
Definition exact_total newton es pos n l (i : nat) (X1 X2 A1 A2 : R) : option R :=
  if (i <? length (exact newton es pos n l X1 X2 A1 A2))%nat then total_path (firstn (S i) (exact newton es pos n l X1 X2 A1 A2)) else None.
Lemma total_signed ws : forall l, Forall (fun w => w = 1) ws -> (length l <= length ws)%nat -> signed_path ws l = total_path l.
Proof.
  induction ws as [|w ws IH]; intros [|s l] F L; cbn in L; try lia; auto. cbn [signed_path total_path]. inversion F as [|? ? -> F']. rewrite IH by (auto; lia). destruct (st_t s); cbn [obind]; auto. destruct (total_path l); cbn [obind]; auto. f_equal. ring.
Qed.
Theorem C43_path : forall m idx jdx abi, (2 <= m)%nat -> (Z.of_nat (simplex_size 3 m) <= 65536)%Z -> simplex_idx 3 m = Some (idx, jdx, abi) ->
  forall newton l e0 es pos n0, lens l false es -> p_rotated (e_place e0) = false -> 0 < n0 ->
  (forall e, In e (e0 :: es) -> 0 <= vz (p_offset (e_place e))) ->
  forall sts i st, poly_trace abi m (simplex_size 3 m) (e0 :: es) l pos n0 = Some sts -> nth_error sts (S i) = Some st ->
    within (2 * m) (exact_total newton (e0 :: es) pos n0 l (S i)) (value jdx (ps_o st)).
Proof.
  intros m idx jdx abi Hm Hs Hi newton l e0 es pos n0 LE R0 N0 OF sts i st PT NE. destruct (C43_taylor m idx jdx abi Hm Hs Hi newton l e0 es pos n0 LE R0 N0) as (sts' & PT' & LN & H).
  assert (sts' = sts) by congruence. subst sts'. destruct (H i st NE) as (_ & _ & _ & _ & _ & C & d & D & W). exists C, d. split; [auto|]. intros h X1 X2 A1 A2 HL H1 H2 H4 H5. destruct (W h X1 X2 A1 A2 HL H1 H2 H4 H5) as (a & b & EA & EB & EC).
  exists a, b. split; [|auto]. rewrite <- EA. unfold exact_total, exact_path. destruct (S i <? _)%nat; auto. symmetry. apply total_signed.
  - apply Forall_forall. intros w HW. assert (HI : In w (map orient (e0 :: es))) by (rewrite <- (firstn_skipn (S (S i))); apply in_or_app; auto). apply in_map_iff in HI. destruct HI as (e & <- & HI). specialize (OF e HI). unfold orient. destruct (Rlt_dec _ 0); [lra|auto].
  - rewrite !firstn_length, map_length. assert (SL : length (exact newton (e0 :: es) pos n0 l X1 X2 A1 A2) = length (e0 :: es)). { unfold exact, geo_trace. cbn [length]. f_equal. generalize (from_normal (e_place e0) (V X1 X2 pos)) at 1. generalize (from_normal (e_place e0) (V (A1 / sqrt (1 + A1 ^ 2 + A2 ^ 2)) (A2 / sqrt (1 + A1 ^ 2 + A2 ^ 2)) (1 / sqrt (1 + A1 ^ 2 + A2 ^ 2)))). generalize n0. clear. induction es as [|e es IH]; intros n u y; [reflexivity|]. cbn [sys_propagate]. destruct (propagate _ _ _ _ _ _ _) as [[[? ?] ?] ?]. cbn [length]. f_equal. apply IH. }
    rewrite SL. lia.
Qed.
Print Assumptions C43_path.
Example C43_path_example : lens 0 false singlet /\ forall e, In e (El (at_front 0) None Plain :: singlet) -> 0 <= vz (p_offset (e_place e)).
Proof. split; [apply lens_singlet|]. intros e [<-|[<-|[<-|[]]]]; cbn; lra. Qed.

(** * [evaluate] *)
(** object at infinity: fractions x, y of the pupil radius and a, b of the field angle *)
Theorem C43_evaluate : forall m idx jdx abi, (2 <= m)%nat -> (Z.of_nat (simplex_size 3 m) <= 65536)%Z -> simplex_idx 3 m = Some (idx, jdx, abi) ->
  forall newton l e0 es pos n0, lens l false es -> p_rotated (e_place e0) = false -> 0 < n0 ->
  exists sts, poly_trace abi m (simplex_size 3 m) (e0 :: es) l pos n0 = Some sts /\ length sts = S (length es) /\
  forall i st, nth_error sts (S i) = Some st ->
  exists C delta, 0 < delta /\ forall h rad angle x y a b, h < delta -> Rabs rad <= h -> Rabs angle <= h -> Rabs x <= 1 -> Rabs y <= 1 -> Rabs a <= 1 -> Rabs b <= 1 ->
    exists p1 p2 y1 y2, poly_evaluate jdx st rad angle x y a b = Some (p1, p2) /\
      exact_y newton (e0 :: es) pos n0 l (S i) vx (x * rad) (y * rad) (a * angle) (b * angle) = Some y1 /\
      exact_y newton (e0 :: es) pos n0 l (S i) vy (x * rad) (y * rad) (a * angle) (b * angle) = Some y2 /\
      Rabs (y1 - p1) <= C * h ^ (2 * m + 1) /\ Rabs (y2 - p2) <= C * h ^ (2 * m + 1).
Proof.
  intros m idx jdx abi Hm Hs Hi newton l e0 es pos n0 LE R0 N0. destruct (C43_taylor m idx jdx abi Hm Hs Hi newton l e0 es pos n0 LE R0 N0) as (sts & PT & LN & H). exists sts. split; [auto|]. split; [auto|].
  intros i st NE. destruct (H i st NE) as ((C1 & d1 & D1 & W1) & (C2 & d2 & D2 & W2) & _). exists (Rmax C1 C2), (Rmin d1 d2). split; [apply Rmin_pos; auto|].
  intros h rad angle x y a b HL HR HA X1 Y1 A1 B1. pose proof (Rmin_l d1 d2). pose proof (Rmin_r d1 d2). pose proof (Rmax_l C1 C2). pose proof (Rmax_r C1 C2).
  assert (B : forall f g, Rabs f <= 1 -> Rabs g <= h -> Rabs (f * g) <= h). { intros f g Hf Hg. rewrite Rabs_mult. pose proof (Rabs_pos f). pose proof (Rabs_pos g). nra. }
  assert (HP : 0 <= h ^ (2 * m + 1)) by (apply pow_le; pose proof (Rabs_pos rad); lra).
  destruct (W1 h (x * rad) (y * rad) (a * angle) (b * angle) ltac:(lra) ltac:(auto) ltac:(auto) ltac:(auto) ltac:(auto)) as (y1 & p1 & E1 & F1 & G1). destruct (W2 h (x * rad) (y * rad) (a * angle) (b * angle) ltac:(lra) ltac:(auto) ltac:(auto) ltac:(auto) ltac:(auto)) as (y2 & p2 & E2 & F2 & G2).
  exists p1, p2, y1, y2. split; [|split; [auto|split; [auto|split; nra]]].
  unfold combine1, combine2, value in F1, F2. unfold poly_evaluate. destruct (simplex_eval R 0 Rplus Rmult jdx (ps_s st) _) as [s|]; cbn [obind] in *; [|discriminate F1]. destruct (simplex_eval R 0 Rplus Rmult jdx (ps_t st) _) as [t|]; cbn [obind] in *; [|discriminate F1]. congruence.
Qed.
Print Assumptions C43_evaluate.
Example C43_evaluate_example : lens 0 false folded /\ p_rotated (at_front 0) = false /\ Rabs (1 / 2) <= 1 /\ Rabs (- 1) <= 1 /\ forall h, 0 < h -> Rabs (h / 3) <= h.
Proof. split; [apply lens_folded|]. split; [reflexivity|]. split; [rewrite Rabs_right; lra|]. split; [rewrite Rabs_left; lra|]. intros h H. rewrite Rabs_right; lra. Qed.

(** finite object: the ray from the object point (-R f1, -R f2, 0) to the pupil point (r x1, r x2, D) *)
Theorem C43_finite : forall m idx jdx abi, (2 <= m)%nat -> (Z.of_nat (simplex_size 3 m) <= 65536)%Z -> simplex_idx 3 m = Some (idx, jdx, abi) ->
  (forall e, length e = 3%nat -> (list_sum e < m)%nat -> (Z.of_nat (multinom e) < 65536)%Z) ->
  forall newton l e0 es pos n0 c r, lens l false es -> p_rotated (e_place e0) = false -> 0 < n0 ->
  cj_finite c = true -> pu_telecentric (cj_pupil c) = false -> pu_distance (cj_pupil c) <> 0 -> pupil_radius (cj_pupil c) = Some r -> poly_start c = Some pos ->
  exists sts, poly_trace abi m (simplex_size 3 m) (e0 :: es) l pos n0 = Some sts /\ length sts = S (length es) /\
  forall i st, nth_error sts (S i) = Some st ->
  exists fuel C delta, 0 < delta /\ forall f h x1 x2 f1 f2, (fuel <= f)%nat -> h < delta -> Rabs x1 <= h -> Rabs x2 <= h -> Rabs f1 <= h -> Rabs f2 <= h ->
    let D := pu_distance (cj_pupil c) in let Ro := cj_val c in
    let A1 := (r * x1 + Ro * f1) / D in let A2 := (r * x2 + Ro * f2) / D in
    let X1 := - Ro * f1 + pos * A1 in let X2 := - Ro * f2 + pos * A2 in
    exists p1 p2 y1 y2, poly_evaluate_finite f idx jdx c st x1 x2 f1 f2 = Some (p1, p2) /\
      exact_y newton (e0 :: es) pos n0 l (S i) vx X1 X2 A1 A2 = Some y1 /\
      exact_y newton (e0 :: es) pos n0 l (S i) vy X1 X2 A1 A2 = Some y2 /\
      Rabs (y1 - p1) <= C * h ^ (2 * m + 1) /\ Rabs (y2 - p2) <= C * h ^ (2 * m + 1).
Proof.
  intros m idx jdx abi Hm Hs Hi Hb newton l e0 es pos n0 c r LE R0 N0 FI TE D0 PR PS. destruct (C43_taylor m idx jdx abi Hm Hs Hi newton l e0 es pos n0 LE R0 N0) as (sts & PT & LN & H).
  destruct (core m idx jdx abi Hm Hs Hi newton l e0 es pos n0 LE R0 N0) as (sts' & PT' & _ & dd & _ & HT). assert (sts' = sts) by congruence. subst sts'.
  exists sts. split; [auto|]. split; [auto|]. intros i st NE. destruct (H i st NE) as ((C1 & d1 & D1 & W1) & (C2 & d2 & D2 & W2) & _). destruct (HT i st NE) as (F & T & _). clear H HT.
  set (D := pu_distance (cj_pupil c)) in *. set (Ro := cj_val c) in *.
  unfold poly_start in PS. rewrite FI, TE in PS. destruct (pupil_slope (cj_pupil c)) as [a|] eqn:SL; cbn [obind] in PS; [|discriminate PS]. destruct (conj_slope c) as [c'|] eqn:CS; cbn [obind] in PS; [|discriminate PS].
  assert (EC : c' = Ro / D). { unfold conj_slope in CS. rewrite FI in CS. fold D Ro in CS. rewrite fdiv_some in CS by auto. congruence. }
  assert (EA : a = r / D). { unfold pupil_radius in PR. unfold pupil_slope in SL, PR. fold D in SL, PR. destruct (pu_kind (cj_pupil c)). 1, 2, 4: rewrite SL in PR; cbn [obind] in PR; injection PR as <-; field; auto. rewrite fdiv_some in SL by auto. congruence. }
  destruct (finite_evaluate m idx jdx abi Hm Hs Hi Hb c st r a c' (proj1 (ts_s _ _ _ T)) (proj1 (ts_t _ _ _ T)) PR SL CS) as (N & FE).
  set (K := 1 + Rabs Ro + Rabs (pos * r / D) + Rabs (pos * Ro / D) + Rabs (r / D) + Rabs (Ro / D)).
  assert (K1 : 1 <= K). { unfold K. pose proof (Rabs_pos Ro). pose proof (Rabs_pos (pos * r / D)). pose proof (Rabs_pos (pos * Ro / D)). pose proof (Rabs_pos (r / D)). pose proof (Rabs_pos (Ro / D)). lra. }
  exists N, (Rmax (Rabs C1) (Rabs C2) * K ^ (2 * m + 1)), (Rmin d1 d2 / K). split; [apply Rdiv_lt_0_compat; [apply Rmin_pos; auto|lra]|].
  intros f h x1 x2 f1 f2 HF HL HX1 HX2 HF1 HF2. cbv zeta. set (A1 := (r * x1 + Ro * f1) / D). set (A2 := (r * x2 + Ro * f2) / D). set (X1 := - Ro * f1 + pos * A1). set (X2 := - Ro * f2 + pos * A2).
  assert (HK : K * h < Rmin d1 d2). { apply (Rmult_lt_compat_l K) in HL; [|lra]. replace (K * (Rmin d1 d2 / K)) with (Rmin d1 d2) in HL by (field; lra). auto. }
  pose proof (Rmin_l d1 d2). pose proof (Rmin_r d1 d2).
  assert (BA : forall x f, Rabs x <= h -> Rabs f <= h -> Rabs ((r * x + Ro * f) / D) <= K * h).
  { intros x g Hx Hg. replace ((r * x + Ro * g) / D) with (r / D * x + Ro / D * g) by (field; auto). eapply Rle_trans; [apply Rabs_triang|]. rewrite !Rabs_mult. unfold K. pose proof (Rabs_pos Ro). pose proof (Rabs_pos (pos * r / D)). pose proof (Rabs_pos (pos * Ro / D)). pose proof (Rabs_pos (r / D)). pose proof (Rabs_pos (Ro / D)). pose proof (Rabs_pos x).
    assert (Rabs (r / D) * Rabs x <= Rabs (r / D) * h) by (apply Rmult_le_compat_l; auto). assert (Rabs (Ro / D) * Rabs g <= Rabs (Ro / D) * h) by (apply Rmult_le_compat_l; auto). 
    assert (0 <= (1 + Rabs Ro + Rabs (pos * r / D) + Rabs (pos * Ro / D)) * h) by (apply Rmult_le_pos; lra). lra. }
  assert (BX : forall x f, Rabs x <= h -> Rabs f <= h -> Rabs (- Ro * f + pos * ((r * x + Ro * f) / D)) <= K * h).
  { intros x g Hx Hg. replace (- Ro * g + pos * ((r * x + Ro * g) / D)) with (- Ro * g + (pos * r / D * x + pos * Ro / D * g)) by (field; auto). eapply Rle_trans; [apply Rabs_triang|]. eapply Rle_trans; [apply Rplus_le_compat_l, Rabs_triang|]. rewrite !Rabs_mult, Rabs_Ropp.
    unfold K. pose proof (Rabs_pos Ro). pose proof (Rabs_pos (pos * r / D)). pose proof (Rabs_pos (pos * Ro / D)). pose proof (Rabs_pos (r / D)). pose proof (Rabs_pos (Ro / D)). pose proof (Rabs_pos x).
    assert (Rabs Ro * Rabs g <= Rabs Ro * h) by (apply Rmult_le_compat_l; auto). assert (Rabs (pos * r / D) * Rabs x <= Rabs (pos * r / D) * h) by (apply Rmult_le_compat_l; auto). assert (Rabs (pos * Ro / D) * Rabs g <= Rabs (pos * Ro / D) * h) by (apply Rmult_le_compat_l; auto).
    assert (0 <= (1 + Rabs (r / D) + Rabs (Ro / D)) * h) by (apply Rmult_le_pos; lra). lra. }
  destruct (FE f HF x1 x2 f1 f2) as (p1 & p2 & EV & E1 & E2). fold Ro in E1, E2.
  assert (SX : forall x g, (if Rlt_dec (Rabs c') (Rabs a) then - Ro * g else r * x) = - Ro * g + pos * ((r * x + Ro * g) / D)).
  { intros x g. destruct (Rlt_dec (Rabs c') (Rabs a)); injection PS as <-; [ring|]. fold D. field; auto. }
  rewrite !SX in E1, E2. assert (SA : forall x g, a * x + c' * g = (r * x + Ro * g) / D) by (intros; rewrite EA, EC; field; auto). rewrite !SA in E1, E2. fold A1 A2 in E1, E2. fold X1 X2 in E1, E2.
  destruct (W1 (K * h) X1 X2 A1 A2 ltac:(lra) ltac:(apply BX; auto) ltac:(apply BX; auto) ltac:(apply BA; auto) ltac:(apply BA; auto)) as (y1 & q1 & Y1 & Q1 & G1). destruct (W2 (K * h) X1 X2 A1 A2 ltac:(lra) ltac:(apply BX; auto) ltac:(apply BX; auto) ltac:(apply BA; auto) ltac:(apply BA; auto)) as (y2 & q2 & Y2 & Q2 & G2).
  assert (q1 = p1) by congruence. assert (q2 = p2) by congruence. subst q1 q2. exists p1, p2, y1, y2. split; [auto|]. split; [auto|]. split; [auto|].
  rewrite Rpow_mult_distr in G1, G2. assert (0 <= h ^ (2 * m + 1)) by (apply pow_le; pose proof (Rabs_pos x1); lra). assert (0 <= K ^ (2 * m + 1) * h ^ (2 * m + 1)) by (apply Rmult_le_pos; [apply pow_le; lra|auto]).
  rewrite Rmult_assoc. split; (eapply Rle_trans; [eassumption|]); apply Rmult_le_compat_r; auto; (eapply Rle_trans; [apply Rle_abs|]); [apply Rmax_l|apply Rmax_r].
Qed.
Print Assumptions C43_finite.
(** object of radius 1 at distance 10 from a pupil of radius 2, and one of radius 2 with a pupil of radius 1 *)
Definition obj (Ro r : R) : conjugate := Conjugate true Ro (Pupil RadiusPupil r 10 false false true false 1 Rectilinear) Rectilinear false.
Example C43_finite_example : (forall e, length e = 3%nat -> (list_sum e < 4)%nat -> (Z.of_nat (multinom e) < 65536)%Z) /\
  pu_distance (cj_pupil (obj 1 2)) <> 0 /\ pupil_radius (cj_pupil (obj 1 2)) = Some 2 /\ poly_start (obj 1 2) = Some 0 /\ poly_start (obj 2 1) = Some 10.
Proof.
  split; [intros e H1 H2; apply C07_bound_3_13; auto; lia|]. split; [cbn; lra|]. split; [reflexivity|].
  unfold poly_start, conj_slope, pupil_slope, obj. cbn [cj_finite cj_pupil cj_val pu_telecentric pu_kind pu_val pu_distance]. rewrite !fdiv_some by lra. cbn [obind].
  rewrite !Rabs_right by lra. destruct (Rlt_dec (1 / 10) (2 / 10)); [|lra]. destruct (Rlt_dec (2 / 10) (1 / 10)); [lra|]. split; reflexivity.
Qed.

(** * first order *)
(** no reflecting elements *)
Definition refracting (e : element) : Prop := match e_kind e with Sph (Some mt) _ => m_mirror mt = false | _ => True end.
Lemma axis_matrix t p q a b c d : let r := M4 (V4 1 (- 0) 0 0) (V4 0 (- (1)) 0 0) (V4 0 0 1 (- 0)) (V4 0 0 0 (- (1))) in
  mv4 (mm4 r (mm4 (mm4 (M4 (V4 1 0 0 0) (V4 0 1 0 0) (V4 p 0 1 0) (V4 0 q 0 1)) (M4 (V4 1 0 t 0) (V4 0 1 0 t) (V4 0 0 1 0) (V4 0 0 0 1))) (mT4 r))) (V4 a b c d) = V4 (a + t * c) (b + t * d) (c + p * (a + t * c)) (d + q * (b + t * d)).
Proof.
  cbv zeta. assert (E1 : mm4 (M4 (V4 1 0 0 0) (V4 0 1 0 0) (V4 p 0 1 0) (V4 0 q 0 1)) (M4 (V4 1 0 t 0) (V4 0 1 0 t) (V4 0 0 1 0) (V4 0 0 0 1)) = M4 (V4 1 0 t 0) (V4 0 1 0 t) (V4 p 0 (1 + p * t) 0) (V4 0 q 0 (1 + q * t))).
  { unfold mm4, mT4. cbn [q0 q1 q2 q3 w0 w1 w2 w3]. unfold mv4, dot4. cbn [q0 q1 q2 q3 w0 w1 w2 w3]. f_equal; f_equal; ring. }
  rewrite E1. assert (E2 : mm4 (M4 (V4 1 0 t 0) (V4 0 1 0 t) (V4 p 0 (1 + p * t) 0) (V4 0 q 0 (1 + q * t))) (mT4 (M4 (V4 1 (- 0) 0 0) (V4 0 (- (1)) 0 0) (V4 0 0 1 (- 0)) (V4 0 0 0 (- (1))))) = M4 (V4 1 0 t 0) (V4 0 (- (1)) 0 (- t)) (V4 p 0 (1 + p * t) 0) (V4 0 (- q) 0 (- (1 + q * t)))).
  { unfold mm4, mT4. cbn [q0 q1 q2 q3 w0 w1 w2 w3]. unfold mv4, dot4. cbn [q0 q1 q2 q3 w0 w1 w2 w3]. f_equal; f_equal; ring. }
  rewrite E2. assert (E3 : mm4 (M4 (V4 1 (- 0) 0 0) (V4 0 (- (1)) 0 0) (V4 0 0 1 (- 0)) (V4 0 0 0 (- (1)))) (M4 (V4 1 0 t 0) (V4 0 (- (1)) 0 (- t)) (V4 p 0 (1 + p * t) 0) (V4 0 (- q) 0 (- (1 + q * t)))) = M4 (V4 1 0 t 0) (V4 0 1 0 t) (V4 p 0 (1 + p * t) 0) (V4 0 q 0 (1 + q * t))).
  { unfold mm4, mT4. cbn [q0 q1 q2 q3 w0 w1 w2 w3]. unfold mv4, dot4. cbn [q0 q1 q2 q3 w0 w1 w2 w3]. f_equal; f_equal; ring. }
  rewrite E3. unfold mv4, dot4. cbn [q0 q1 q2 q3 w0 w1 w2 w3]. f_equal; ring.
Qed.
Lemma parax_step l e s X1 X2 A1 A2 X : surface_of l (x_n X) false e s -> refracting e -> on_axis X -> 0 < x_n X ->
  let ray X := V4 ((x_s X - x_f X * x_v X) * X1 + (x_t X - x_f X * x_w X) * A1) ((x_s X - x_f X * x_v X) * X2 + (x_t X - x_f X * x_w X) * A2) (x_n X * (x_v X * X1 + x_w X * A1)) (x_n X * (x_v X * X2 + x_w X * A2)) in
  propagate_paraxial e (Some (ray X)) (x_n X) l = (Some (ray (next s X)), sf_n s).
Proof.
  intros (mat & c & d & K & IN & DP & GM & MU & NP & EC & ED) RF AX NX ray. assert (D0 : 0 <= d) by (destruct DP as [DP|(_ & DP & _)]; lra). rewrite place_front in IN by auto. injection IN as IN. unfold sg in *.
  destruct (on_axis_step (sf_c s) (sf_d s) (sf_mu s) (sf_n s) X AX) as (F0 & G0 & _ & M0 & C0 & R0 & N1 & _).
  assert (EN : ray (next s X) = let y1 := (x_s X + (sf_d s - x_f X) * x_v X) * X1 + (x_t X + (sf_d s - x_f X) * x_w X) * A1 in let y2 := (x_s X + (sf_d s - x_f X) * x_v X) * X2 + (x_t X + (sf_d s - x_f X) * x_w X) * A2 in
    V4 y1 y2 (sf_n s * (sf_mu s * (x_v X * X1 + x_w X * A1) - (1 - sf_mu s) * sf_c s * y1)) (sf_n s * (sf_mu s * (x_v X * X2 + x_w X * A2) - (1 - sf_mu s) * sf_c s * y2))).
  { unfold ray, next, xnext, xgd. cbn [x_f x_n x_r x_p x_k x_s x_t x_v x_w x_o]. rewrite N1, G0, R0, C0, M0, F0, sqrt_1, Rinv_1. unfold xfd.
    assert (FR : xfr (sf_c s) (sf_d s) X = / 2 * sf_c s). { unfold xfr. rewrite G0. destruct (Req_EM_T (sf_c s) 0) as [->|]; [ring|]. rewrite Rinv_1. ring. }
    rewrite FR. cbv zeta. f_equal; field. }
  rewrite EN. clear EN. unfold propagate_paraxial, paraxial_matrix. rewrite K, <- IN. cbn [p_distance p_angles]. unfold transfer_matrix. rewrite fdiv_some by lra. cbn [obind vertex_curvature s_asph s_c vx v0].
  unfold azimuth_matrix, v0. cbn [vx vz]. rewrite !cos_0, !sin_0. unfold index_after. rewrite K.
  assert (MM : forall mt : material, mat = Some mt -> m_mirror mt = false) by (intros mt E; unfold refracting in RF; rewrite K, E in RF; exact RF).
  unfold refraction_matrix. destruct mat as [mt|].
  - rewrite (MM mt eq_refl). unfold get_n_mu in GM. rewrite (MM mt eq_refl) in GM. assert (EN : m_index mt l = sf_n s) by congruence. rewrite EN in *. rewrite fdiv_some in GM by lra. assert (EM : sf_mu s = x_n X / sf_n s) by congruence.
    assert (PM : 0 < sf_n s / x_n X) by (apply Rdiv_lt_0_compat; auto). rewrite fdiv_some by lra. cbn [obind]. replace ((sf_n s / x_n X) ^ 2 + 1 ^ 2 - 1) with ((sf_n s / x_n X) ^ 2) by ring. rewrite fsqrt_some by (apply pow2_ge_0). rewrite sqrt_pow2 by lra. cbn [obind].
    rewrite fdiv_some by lra. cbn [obind]. rewrite fdiv_some by lra. cbn [obind]. assert (E1 : sf_n s / x_n X / (sf_n s / x_n X * 1) = 1) by (field; lra). rewrite E1. rewrite fdiv_some by lra. cbn [obind].
    replace (1 / 1) with 1 by field. assert (EQ : sf_n s / x_n X * (x_n X * c * (1 - sf_n s / x_n X)) / (1 * (sf_n s / x_n X)) = x_n X * c * (1 - sf_n s / x_n X)) by (field; lra). rewrite EQ. f_equal. f_equal. unfold ray. rewrite axis_matrix, EC, ED, EM. f_equal; field; lra.
  - cbn [get_n_mu] in GM. assert (EN : sf_n s = x_n X) by congruence. assert (EM : sf_mu s = 1) by congruence. cbn [obind]. rewrite EN. f_equal. f_equal. unfold ray, eye4. rewrite axis_matrix, EC, ED, EM. f_equal; field; lra.
Qed.
Lemma on_axis_next s X : on_axis X -> on_axis (next s X) /\ x_f (next s X) = 0.
Proof. intros AX. destruct (on_axis_step (sf_c s) (sf_d s) (sf_mu s) (sf_n s) X AX) as (F0 & _ & _ & _ & _ & _ & _ & AX'). split; [exact AX'|exact F0]. Qed.
Lemma parax_chain l es : forall ss X1 X2 A1 A2 X, row_of l (x_n X) false es ss -> Forall refracting es -> on_axis X -> 0 < x_n X ->
  forall i, (i < length es)%nat -> let Y := nth i (xrun ss X) xdefault in
  nth_error (sys_paraxial es (Some (V4 ((x_s X - x_f X * x_v X) * X1 + (x_t X - x_f X * x_w X) * A1) ((x_s X - x_f X * x_v X) * X2 + (x_t X - x_f X * x_w X) * A2) (x_n X * (x_v X * X1 + x_w X * A1)) (x_n X * (x_v X * X2 + x_w X * A2)))) (x_n X) l) i =
  Some (Some (V4 (x_s Y * X1 + x_t Y * A1) (x_s Y * X2 + x_t Y * A2) (x_n Y * (x_v Y * X1 + x_w Y * A1)) (x_n Y * (x_v Y * X2 + x_w Y * A2))), x_n Y).
Proof.
  induction es as [|e es IH]; intros [|s ss] X1 X2 A1 A2 X R F AX NX i LI; try contradiction; [cbn in LI; lia|]. cbn [row_of] in R. destruct R as [R1 R2]. inversion F as [|? ? F1 F2]; subst.
  pose proof (parax_step l e s X1 X2 A1 A2 X R1 F1 AX NX) as PS. cbv zeta in PS. cbn [sys_paraxial]. rewrite PS. clear PS. destruct (on_axis_next s X AX) as [AX' F0]. destruct R1 as (mat & c & d & K & IN & DP & GM & MU & NP & EC & ED).
  destruct i as [|i]; cbn [nth_error xrun nth]; cbv zeta.
  - rewrite F0. change (x_n (next s X)) with (sf_n s). f_equal. f_equal. f_equal. f_equal; ring.
  - assert (NM : is_mirror (sf_mu s) = false). { unfold is_mirror. destruct (Req_EM_T (sf_mu s) (-1)) as [E|]; [|auto]. exfalso. unfold refracting in F1. rewrite K in F1. destruct mat as [mt|]; cbn [get_n_mu] in GM; [rewrite F1 in GM|injection GM; lra]. assert (EN : m_index mt l = sf_n s) by congruence. rewrite EN, fdiv_some in GM by lra. assert (x_n X / sf_n s = -1) by congruence. assert (0 < x_n X / sf_n s) by (apply Rdiv_lt_0_compat; auto). lra. }
    rewrite NM in R2. cbn [xorb] in R2. apply (IH ss X1 X2 A1 A2 (next s X)); auto. cbn in LI. lia.
Qed.
(** the constant coefficients are the paraxial trace of the ray that passes (X1, X2, pos) with slopes (A1, A2) *)
Theorem C43_paraxial : forall m idx jdx abi, (2 <= m)%nat -> (Z.of_nat (simplex_size 3 m) <= 65536)%Z -> simplex_idx 3 m = Some (idx, jdx, abi) ->
  forall l e0 es pos n0, lens l false es -> Forall refracting es -> 0 < n0 ->
  exists sts, poly_trace abi m (simplex_size 3 m) (e0 :: es) l pos n0 = Some sts /\ length sts = S (length es) /\
  forall i st X1 X2 A1 A2, nth_error sts (S i) = Some st ->
    nth_error (sys_paraxial es (Some (V4 (X1 - pos * A1) (X2 - pos * A2) (n0 * A1) (n0 * A2))) n0 l) i =
    Some (Some (V4 (nth 0 (ps_s st) 0 * X1 + nth 0 (ps_t st) 0 * A1) (nth 0 (ps_s st) 0 * X2 + nth 0 (ps_t st) 0 * A2)
                   (ps_n st * (nth 0 (ps_v st) 0 * X1 + nth 0 (ps_w st) 0 * A1)) (ps_n st * (nth 0 (ps_v st) 0 * X2 + nth 0 (ps_w st) 0 * A2))), ps_n st).
Proof.
  intros m idx jdx abi Hm Hs Hi l e0 es pos n0 LE RF N0. destruct (lens_row l es false n0 LE N0) as (ss & R). destruct (trace_origin m idx jdx abi Hm Hs Hi l e0 es ss pos n0 R N0) as (sts & PT & LN & H). exists sts. split; [auto|]. split; [auto|].
  intros i st X1 X2 A1 A2 NE. destruct (H i st NE) as (_ & -> & -> & -> & -> & ->). assert (LI : (i < length es)%nat) by (assert (S i < length sts)%nat by (apply nth_error_Some; congruence); lia).
  pose proof (parax_chain l es ss X1 X2 A1 A2 (xstart pos n0 origin) R RF ltac:(repeat split) N0 i LI) as P. cbn [x_s x_f x_v x_t x_w x_n xstart] in P. rewrite <- P. f_equal. f_equal. f_equal. f_equal; ring.
Qed.
Print Assumptions C43_paraxial.
Example C43_paraxial_example : lens 0 false singlet /\ Forall refracting singlet.
Proof. split; [apply lens_singlet|]. repeat constructor. Qed.

(** * where it fails *)
Lemma beats K c d j k : 0 < c -> 0 < d -> (j < k)%nat -> exists h, 0 < h /\ h < d /\ h < / 2 /\ K * h ^ k < c * h ^ j.
Proof.
  intros C D JK. assert (B := Rle_abs K). assert (AP := Rabs_pos K). set (h := Rmin (d / 2) (Rmin (/ 4) (c / (2 * (Rabs K + 1))))). 
  assert (HC : 0 < c / (2 * (Rabs K + 1))) by (apply Rdiv_lt_0_compat; lra). assert (HP : 0 < h) by (unfold h; repeat apply Rmin_pos; lra). 
  assert (H1 : h <= d / 2) by apply Rmin_l. assert (H2 : h <= / 4) by (eapply Rle_trans; [apply Rmin_r|apply Rmin_l]). assert (H4 : h <= c / (2 * (Rabs K + 1))) by (eapply Rle_trans; [apply Rmin_r|apply Rmin_r]).
  exists h. split; [auto|]. split; [lra|]. split; [lra|]. replace k with (j + S (k - j - 1))%nat by lia. rewrite pow_add. assert (PJ : 0 < h ^ j) by (apply pow_lt; auto). cbn [pow].
  assert (PQ : 0 <= h ^ (k - j - 1) <= 1) by (split; [apply pow_le; lra|rewrite <- (pow1 (k - j - 1)); apply pow_incr; lra]).
  assert (KH : Rabs K * h < c). { apply (Rmult_le_compat_l (Rabs K + 1)) in H4; [|lra]. replace ((Rabs K + 1) * (c / (2 * (Rabs K + 1)))) with (c / 2) in H4 by (field; lra). lra. }
  assert (K * (h * h ^ (k - j - 1)) < c). { assert (0 <= h * h ^ (k - j - 1) <= h) by (split; [apply Rmult_le_pos; lra|nra]). nra. }
  replace (K * (h ^ j * (h * h ^ (k - j - 1)))) with (K * (h * h ^ (k - j - 1)) * h ^ j) by ring. apply Rmult_lt_compat_r; auto.
Qed.
Lemma sag_ge h : 0 < h -> h < / 2 -> h ^ 2 / 2 <= 1 - sqrt (1 - h ^ 2) /\ sqrt (1 - h ^ 2) <= 1 - h ^ 2 / 2.
Proof.
  intros H L. assert (S : sqrt (1 - h ^ 2) <= 1 - h ^ 2 / 2). { rewrite <- (sqrt_pow2 (1 - h ^ 2 / 2)) by nra. apply sqrt_le_1_alt. pose proof (pow2_ge_0 (h ^ 2)). lra. } split; lra.
Qed.
Lemma one_poly m idx jdx abi : (2 <= m)%nat -> (Z.of_nat (simplex_size 3 m) <= 65536)%Z -> simplex_idx 3 m = Some (idx, jdx, abi) ->
  forall e0 e1 mat s l n mu pos n0 sts st, e_kind e1 = Sph mat s -> s_asph s = None -> get_n_mu mat n0 l = (n, Some mu) ->
  poly_trace abi m (simplex_size 3 m) [e0; e1] l pos n0 = Some sts -> nth_error sts 1 = Some st ->
  let d := vz (p_offset (e_place e1)) in tstate m (fun x => xnext (s_c s * sign d) d mu n (xstart pos n0 x)) st.
Proof.
  intros Hm Hs Hi e0 e1 mat s l n mu pos n0 sts st K SA GM PT NE d. assert (Hm1 : (1 <= m)%nat) by lia. unfold poly_trace in PT. destruct (poly_rays (simplex_size 3 m) pos n0) as [st0|] eqn:PR; cbn [obind] in PT; [|discriminate PT].
  pose proof (start_taylor m Hm1 Hs pos n0 st0 Hm PR) as T0. assert (PN : ps_n st0 = n0) by (symmetry; apply (ts_n _ _ _ T0 origin)). rewrite <- PN in GM.
  destruct (step_taylor m idx jdx abi Hm1 Hs Hi e1 mat s l n mu _ st0 K SA GM T0 ltac:(repeat split)) as (st' & PP & T' & _). cbn [tl poly_from] in PT. rewrite PP in PT. cbn [obind] in PT. injection PT as <-. cbn [nth_error] in NE. injection NE as <-. exact T'.
Qed.
Lemma exact_parallel newton s d t h : 0 <= d -> conic_intercept s (V h 0 0) (V 0 0 1) = Some t -> s_asph s = None ->
  exact_y newton [El (at_front 0) None Plain; El (at_front d) None (Sph None s)] d 1 0 1 vz h 0 0 0 = Some t.
Proof.
  intros D CI SA. unfold exact_y, exact, geo_trace. cbn [nth_error obind e_place]. replace (1 + 0 ^ 2 + 0 ^ 2) with 1 by ring. rewrite sqrt_1. replace (0 / 1) with 0 by field. replace (1 / 1) with 1 by field.
  unfold from_normal at 1 2, do_rotate. cbn [p_rotated p_normal p_straight andb negb at_front].
  assert (TN : forall v, to_normal (at_front d) v = Some v) by reflexivity. assert (FN : forall v, from_normal (at_front d) v = Some v) by reflexivity.
  cbn [sys_propagate e_place onormal obind]. unfold onormal. cbn [obind p_offset at_front]. fold (at_front d). rewrite !TN. assert (E : vsub3 (V h 0 d) (V 0 0 d) = V h 0 0) by (apply vec_eq; cbn; ring). rewrite E.
  unfold propagate. cbn [e_kind obind]. unfold intercept. rewrite SA, CI. cbn [obind get_n_mu nth_error st_y]. rewrite FN. cbn [obind]. f_equal. unfold at_ray. cbn. ring.
Qed.
Lemma parallel_off m idx jdx abi : (2 <= m)%nat -> (Z.of_nat (simplex_size 3 m) <= 65536)%Z -> simplex_idx 3 m = Some (idx, jdx, abi) ->
  forall newton s d sts st (T : R -> R) c j, 0 <= d -> s_asph s = None -> poly_trace abi m (simplex_size 3 m) [El (at_front 0) None Plain; El (at_front d) None (Sph None s)] 0 d 1 = Some sts -> nth_error sts 1 = Some st ->
  (forall h, 0 < h < / 2 -> conic_intercept s (V h 0 0) (V 0 0 1) = Some (T h)) -> 0 < c -> (j < 2 * m)%nat ->
  (forall h, 0 < h < / 2 -> c * h ^ j <= Rabs (T h - xf (s_c s * sign d) d (xstart d 1 (h ^ 2, 0, 0)))) ->
  ~ within (2 * m) (exact_y newton [El (at_front 0) None Plain; El (at_front d) None (Sph None s)] d 1 0 1 vz) (value jdx (ps_f st)).
Proof.
  intros Hm Hs Hi newton s d sts st T c j D SA PT NE CI C JM OFF (Cw & dw & Dw & W).
  pose proof (one_poly m idx jdx abi Hm Hs Hi (El (at_front 0) None Plain) (El (at_front d) None (Sph None s)) None s 0 1 1 d 1 sts st eq_refl SA eq_refl PT NE) as TS. cbv zeta in TS. cbn [e_place p_offset at_front vz] in TS. destruct TS as [Tf _ _ _ _ _ _ _ _ _].
  destruct (taylor_ray m idx jdx abi Hm Hs Hi _ _ Tf) as (Ct & dt & _ & Dt & HT). destruct (beats (Cw + Ct) c (Rmin dw dt) j (2 * m) C ltac:(apply Rmin_pos; auto) JM) as (h & HP & HD & HH & HB). pose proof (Rmin_l dw dt). pose proof (Rmin_r dw dt).
  assert (A1 : Rabs h <= h) by (rewrite Rabs_right; lra). assert (A0 : Rabs 0 <= h) by (rewrite Rabs_R0; lra).
  destruct (W h h 0 0 0 ltac:(lra) A1 A0 A0 A0) as (a & b & EA & EB & EC). destruct (HT h h 0 0 0 ltac:(lra) A1 A0 A0 A0) as (v & EV & EW). rewrite (exact_parallel newton s d (T h) h D (CI h ltac:(lra)) SA) in EA.
  assert (a = T h) by congruence. assert (v = b) by congruence. subst a v. specialize (OFF h ltac:(lra)). cbn [x_f xnext] in EW. unfold ray_pt in EW. replace (h ^ 2 + 0 ^ 2) with (h ^ 2) in EW by ring. replace (0 ^ 2 + 0 ^ 2) with 0 in EW by ring. replace (h * 0 + 0 * 0) with 0 in EW by ring.
  set (G := xf _ d (xstart d 1 (h ^ 2, 0, 0))) in *. assert (TR : Rabs (T h - G) <= Rabs (T h - b) + Rabs (G - b)) by (replace (T h - G) with ((T h - b) - (G - b)) by ring; eapply Rle_trans; [apply Rabs_triang|rewrite Rabs_Ropp; lra]). lra.
Qed.
(** a sphere of curvature 1 without material at the vertex of the launch surface: the polynomial trace takes the sign of the
    distance, which is zero, as factor of the curvature and sees a plane *)
Theorem C43_zero_distance_refuted : forall m idx jdx abi, (2 <= m)%nat -> (Z.of_nat (simplex_size 3 m) <= 65536)%Z -> simplex_idx 3 m = Some (idx, jdx, abi) ->
  exists e0 e1, e_kind e1 = Sph None (Surf 1 0 None false) /\ init 0 ez v0 None = Some (e_place e1) /\ p_rotated (e_place e0) = false /\
  forall newton sts st, poly_trace abi m (simplex_size 3 m) [e0; e1] 0 0 1 = Some sts -> nth_error sts 1 = Some st ->
    ~ within (2 * m) (exact_y newton [e0; e1] 0 1 0 1 vz) (value jdx (ps_f st)).
Proof.
  intros m idx jdx abi Hm Hs Hi. exists (El (at_front 0) None Plain), (El (at_front 0) None (Sph None (Surf 1 0 None false))). split; [reflexivity|]. split; [apply place_front; lra|]. split; [reflexivity|].
  intros newton sts st PT NE. apply (parallel_off m idx jdx abi Hm Hs Hi newton (Surf 1 0 None false) 0 sts st (fun h => 1 - sqrt (1 - h ^ 2)) (/ 2) 2 (Rle_refl 0) eq_refl PT NE); try lra; try lia.
  - intros h H. unfold conic_intercept. cbn [s_c s_k s_alt]. destruct (Req_EM_T 1 0); [lra|]. destruct (Req_EM_T 0 0); [|lra]. unfold dot. cbn [vx vy vz]. rewrite fsqrt_some by nra. cbn [obind]. rewrite fdiv_some by lra. f_equal. match goal with |- - (_ + sqrt ?x) / _ = _ => replace x with (1 - h ^ 2) by ring end. field.
  - intros h H. unfold sign. cbn [s_c]. destruct (Rlt_dec 0 0); [lra|]. unfold xf. destruct (Req_EM_T (1 * 0) 0) as [_|NZ]; [|exfalso; apply NZ; ring]. destruct (sag_ge h) as [S _]; try lra. pose proof (pow2_ge_0 h). cbv beta. rewrite Rabs_right; lra.
Qed.
Print Assumptions C43_zero_distance_refuted.
(** conic constants are ignored: hyperboloid with k = -2 at distance 1 *)
Theorem C43_conic_refuted : forall m idx jdx abi, (3 <= m)%nat -> (Z.of_nat (simplex_size 3 m) <= 65536)%Z -> simplex_idx 3 m = Some (idx, jdx, abi) ->
  exists e0 e1, e_kind e1 = Sph None (Surf 1 (-2) None false) /\ init 1 ez v0 None = Some (e_place e1) /\ p_rotated (e_place e0) = false /\
  forall newton sts st, poly_trace abi m (simplex_size 3 m) [e0; e1] 0 1 1 = Some sts -> nth_error sts 1 = Some st ->
    ~ within (2 * m) (exact_y newton [e0; e1] 1 1 0 1 vz) (value jdx (ps_f st)).
Proof.
  intros m idx jdx abi Hm Hs Hi. exists (El (at_front 0) None Plain), (El (at_front 1) None (Sph None (Surf 1 (-2) None false))). split; [reflexivity|]. split; [apply place_front; lra|]. split; [reflexivity|].
  intros newton sts st PT NE. apply (parallel_off m idx jdx abi ltac:(lia) Hs Hi newton (Surf 1 (-2) None false) 1 sts st (fun h => sqrt (1 + h ^ 2) - 1) (/ 16) 4 ltac:(lra) eq_refl PT NE); try lra; try lia.
  - intros h H. unfold conic_intercept. cbn [s_c s_k s_alt]. destruct (Req_EM_T 1 0); [lra|]. destruct (Req_EM_T (-2) 0); [lra|]. cbn [vx vy vz]. rewrite fsqrt_some by nra. cbn [obind]. rewrite fdiv_some by lra. f_equal. match goal with |- - (_ + sqrt ?x) / _ = _ => replace x with (1 + h ^ 2) by ring end. field.
  - intros h H. unfold sign. cbn [s_c]. destruct (Rlt_dec 0 1); [|lra]. unfold xf. destruct (Req_EM_T (1 * 1) 0); [lra|]. unfold xa, xdisc, xkt, xrt, xfd, xstart. cbn [x_k x_f x_p x_r fst snd].
    match goal with |- context [sqrt ?x] => match x with 1 + _ => fail 1 | _ => replace x with (1 - h ^ 2) by ring end end.
    assert (S1 : sqrt (1 - h ^ 2) <= 1 - h ^ 2 / 2 - h ^ 4 / 8). { rewrite <- (sqrt_pow2 (1 - h ^ 2 / 2 - h ^ 4 / 8)). - apply sqrt_le_1_alt. assert (0 <= h ^ 6) by (apply pow_le; lra). assert (0 <= h ^ 8) by (apply pow_le; lra). nra. - assert (h ^ 2 <= 1) by nra. assert (h ^ 4 <= 1) by (replace (h ^ 4) with (h ^ 2 * h ^ 2) by ring; nra). lra. }
    assert (S2 : sqrt (1 + h ^ 2) <= 1 + h ^ 2 / 2). { rewrite <- (sqrt_pow2 (1 + h ^ 2 / 2)) by nra. apply sqrt_le_1_alt. pose proof (pow2_ge_0 (h ^ 2)). lra. }
    rewrite Rabs_left1; replace (0 + 1) with 1 by ring; rewrite Rinv_1; assert (0 <= h ^ 4) by (apply pow_le; lra); lra.
Qed.
Print Assumptions C43_conic_refuted.
(** reflected light: lengths are subtracted.  A plane mirror at distance 1 and a plane at distance 1 in front of it: the
    path on the axis is 2, the polynomial has the constant 0 *)
Definition back_and_forth : list element :=
  [El (at_front 1) None (Sph (Some mirror) (Surf 0 0 None false)); El (at_back 1) None (Sph None (Surf 0 0 None false))].
Lemma lens_back_and_forth l : lens l false back_and_forth.
Proof.
  exists (Some mirror), 0, 1. split; [reflexivity|]. split; [apply place_front; lra|]. split; [left; lra|].
  exists None, 0, 1. split; [reflexivity|]. split; [apply place_back; lra|]. split; [left; lra|]. exact I.
Qed.
Lemma axis_trace newton : let es := El (at_front 0) None Plain :: back_and_forth in exists s0 s1 s2,
  exact newton es 0 1 0 0 0 0 0 = [s0; s1; s2] /\ st_t s0 = Some 0 /\ st_t s1 = Some 1 /\ st_t s2 = Some 1.
Proof.
  cbv zeta. unfold exact, geo_trace. replace (1 + 0 ^ 2 + 0 ^ 2) with 1 by ring. rewrite sqrt_1. replace (0 / 1) with 0 by field. replace (1 / 1) with 1 by field.
  unfold from_normal at 1 2, do_rotate at 1 2. cbn [e_place p_rotated p_normal p_straight andb negb at_front].
  unfold back_and_forth. cbn [sys_propagate e_place].
  assert (T1 : forall v, to_normal (at_front 1) v = Some v) by reflexivity. assert (F1 : forall v, from_normal (at_front 1) v = Some v) by reflexivity. unfold onormal. cbn [obind p_offset at_front]. fold (at_front 1). rewrite !T1.
  assert (E : vsub3 (V 0 0 0) (V 0 0 1) = V 0 0 (-1)) by (apply vec_eq; cbn; ring). rewrite E.
  assert (P1 : propagate newton {| e_place := at_front 1; e_radius := None; e_kind := Sph (Some mirror) {| s_c := 0; s_k := 0; s_asph := None; s_alt := false |} |} (Some (V 0 0 (-1))) (Some (V 0 0 1)) 1 0 false = (Some (V 0 0 0), Some (V 0 0 (-1)), 1, Some 1)).
  { unfold propagate. cbn [e_kind obind]. unfold intercept. cbn [s_asph]. unfold conic_intercept. cbn [s_c vz]. destruct (Req_EM_T 0 0); [|lra]. rewrite fdiv_some by lra. replace (- -1 / 1) with 1 by field. cbn [obind get_n_mu mirror m_mirror].
    assert (A : at_ray (V 0 0 (-1)) (V 0 0 1) 1 = V 0 0 0) by (unfold at_ray; apply vec_eq; cbn; ring). rewrite A. destruct (Req_EM_T (-1) 0); [lra|]. unfold refract. destruct (Req_EM_T (-1) 1); [lra|]. cbn [obind]. unfold surface_normal. cbn [s_c s_asph]. destruct (Req_EM_T 0 0); [|lra]. cbn [obind].
    unfold refract_normal, dot. cbn [vx vy vz]. rewrite (Rabs_left (-1)) by lra. rewrite fdiv_some by lra. cbn [obind]. destruct (Req_EM_T (-1) (-1)); [|lra]. f_equal; [f_equal; f_equal; f_equal; apply vec_eq; cbn; field|f_equal; ring]. }
  rewrite P1. cbn [obind]. rewrite !F1. cbn [obind p_offset at_back]. fold (at_back 1).
  assert (T2 : forall v, to_normal (at_back 1) v = Some (turn v)) by (intros v; unfold to_normal, do_rotate, p_rotated; cbn [p_normal p_straight p_rot_normal andb negb at_back]; f_equal; unfold turn, half_turn; destruct v; vec_ring). rewrite !T2.
  assert (E2 : turn (vsub3 (V 0 0 0) (V 0 0 (- (1)))) = V 0 0 (-1)) by (apply vec_eq; cbn; ring). assert (E3 : turn (V 0 0 (-1)) = V 0 0 1) by (apply vec_eq; cbn; ring). rewrite E2, E3.
  unfold propagate. cbn [e_kind obind]. unfold intercept. cbn [s_asph]. unfold conic_intercept. cbn [s_c vz]. destruct (Req_EM_T 0 0); [|lra]. rewrite fdiv_some by lra. replace (- -1 / 1) with 1 by field. cbn [obind get_n_mu].
  do 3 eexists. split; [reflexivity|]. cbn [st_t]. repeat split. f_equal. ring.
Qed.
Theorem C43_path_refuted : forall m idx jdx abi, (2 <= m)%nat -> (Z.of_nat (simplex_size 3 m) <= 65536)%Z -> simplex_idx 3 m = Some (idx, jdx, abi) ->
  exists e0 es, lens 0 false es /\ p_rotated (e_place e0) = false /\
  forall newton sts st, poly_trace abi m (simplex_size 3 m) (e0 :: es) 0 0 1 = Some sts -> nth_error sts 2 = Some st ->
    exact_total newton (e0 :: es) 0 1 0 2 0 0 0 0 = Some 2 /\ value jdx (ps_o st) 0 0 0 0 = Some 0 /\
    ~ within (2 * m) (exact_total newton (e0 :: es) 0 1 0 2) (value jdx (ps_o st)).
Proof.
  intros m idx jdx abi Hm Hs Hi. exists (El (at_front 0) None Plain), back_and_forth. split; [apply lens_back_and_forth|]. split; [reflexivity|]. intros newton sts st PT NE.
  destruct (C43_taylor m idx jdx abi Hm Hs Hi newton 0 (El (at_front 0) None Plain) back_and_forth 0 1 (lens_back_and_forth 0) eq_refl ltac:(lra)) as (sts' & PT' & _ & H). assert (sts' = sts) by congruence. subst sts'.
  destruct (H 1%nat st NE) as (_ & _ & _ & _ & _ & C & d & D & W). assert (A0 : Rabs 0 <= 0) by (rewrite Rabs_R0; lra). destruct (W 0 0 0 0 0 D A0 A0 A0 A0) as (a & b & EA & EB & EC).
  destruct (axis_trace newton) as (s0 & s1 & s2 & E & T0 & T1 & T2). assert (P0 : 0 ^ (2 * m) = 0) by (apply pow_i; lia). rewrite P0, Rmult_0_r in EC.
  assert (ET : exact_total newton (El (at_front 0) None Plain :: back_and_forth) 0 1 0 2 0 0 0 0 = Some 2). { unfold exact_total. rewrite E. cbn [length Nat.ltb Nat.leb firstn total_path]. rewrite T0, T1, T2. cbn [obind]. f_equal. ring. }
  assert (EP : a = 0). { unfold exact_path in EA. rewrite E in EA. cbn [length Nat.ltb Nat.leb firstn map back_and_forth signed_path] in EA. rewrite T0, T1, T2 in EA. cbn [obind] in EA. injection EA as <-. unfold orient. cbn [e_place p_offset at_front at_back vz]. destruct (Rlt_dec 0 0); [lra|]. destruct (Rlt_dec 1 0); [lra|]. destruct (Rlt_dec (- (1)) 0); [|lra]. ring. }
  subst a. assert (b = 0). { pose proof (Rabs_pos (0 - b)). assert (Z : Rabs (0 - b) = 0) by lra. destruct (Req_dec b 0); [auto|]. exfalso. apply (Rabs_no_R0 (0 - b)); [lra|auto]. } subst b.
  split; [exact ET|]. split; [exact EB|]. intros (C' & d' & D' & W'). destruct (W' 0 0 0 0 0 D' A0 A0 A0 A0) as (a & b & EA' & EB' & EC'). assert (a = 2) by congruence. assert (b = 0) by congruence. subst a b. rewrite P0, Rmult_0_r in EC'. rewrite Rabs_right in EC' by lra. lra.
Qed.
Print Assumptions C43_path_refuted.

(** aspheric coefficients of a curved surface multiply powers of c^2 r^2 instead of r^2: the sag of the surface
    with curvature 2 and aspheric coefficient 1 at distance 1 is wrong by 3 h^2, whatever solver finds the exact intersection *)
Theorem C43_asphere_refuted : forall m idx jdx abi, (2 <= m)%nat -> (Z.of_nat (simplex_size 3 m) <= 65536)%Z -> simplex_idx 3 m = Some (idx, jdx, abi) ->
  exists e0 e1, e_kind e1 = Sph None (Surf 2 0 (Some [1]) false) /\ init 1 ez v0 None = Some (e_place e1) /\ p_rotated (e_place e0) = false /\
  forall newton, (forall f g x t, newton f g x = Some t -> f t = Some 0) ->
  ~ exists sts st, poly_trace abi m (simplex_size 3 m) [e0; e1] 0 1 1 = Some sts /\ nth_error sts 1 = Some st /\
      within (2 * m) (exact_y newton [e0; e1] 1 1 0 1 vz) (value jdx (ps_f st)).
Proof.
  intros m idx jdx abi Hm Hs Hi. set (s := Surf 2 0 (Some [1]) false). exists (El (at_front 0) None Plain), (El (at_front 1) None (Sph None s)). split; [reflexivity|]. split; [apply place_front; lra|]. split; [reflexivity|].
  intros newton NW (sts & st & PT & NE & Cw & dw & Dw & W). assert (Hm1 : (1 <= m)%nat) by lia.
  assert (TF : taylor m (fun x => xf 2 1 (xstart 1 1 x) + xrr 2 1 (xstart 1 1 x)) (ps_f st)).
  { unfold poly_trace in PT. destruct (poly_rays (simplex_size 3 m) 1 1) as [st0|] eqn:PR; cbn [obind] in PT; [|discriminate PT]. pose proof (start_taylor m Hm1 Hs 1 1 st0 Hm PR) as T0.
    cbn [tl poly_from] in PT. destruct (propagate_poly abi m (simplex_size 3 m) {| e_place := at_front 1; e_radius := None; e_kind := Sph None s |} 0 st0) as [st'|] eqn:PP; cbn [obind] in PT; [|discriminate PT]. injection PT as <-. cbn [nth_error] in NE. injection NE as ->.
    unfold propagate_poly in PP. cbn [e_kind e_place p_offset at_front vz] in PP. pose proof (intercept_taylor m idx jdx abi Hm1 Hs Hi (Surf 2 0 None false) 1 _ st0 eq_refl T0 ltac:(repeat split)) as IT. cbv zeta in IT.
    destruct (transfer_poly abi 1 st0) as [[fd rt] kt]. destruct IT as (_ & _ & _ & r & f & fr & g & IP & Tf & _ & _ & _ & Tr). cbn [s_c] in Tf, Tr.
    assert (SG : sign 1 = 1) by (unfold sign; destruct (Rlt_dec 0 1); [auto|lra]). rewrite SG, Rmult_1_r in Tf, Tr.
    unfold intercept_poly in IP. cbn [s_asph s_c] in IP. unfold intercept_poly in PP. cbn [s_asph s_c s] in PP. destruct (if Req_EM_T (2 * sign 1) 0 then _ else _) as [[[[r0 f0] fr0] g0]|]; cbn [obind] in IP, PP; [|discriminate IP]. injection IP as -> -> -> ->.
    cbn [length asph_rounds] in PP. rewrite SG in PP. set (df := asph_df abi (simplex_size 3 m) 1 [1] r) in PP. destruct (ppow abi m _ (- / 2)) as [g'|] in PP; cbn [obind] in PP; [|discriminate PP]. cbn [get_n_mu obind] in PP.
    destruct (ppow abi m (pshift (ps_p st0) 1) (- / 2)) as [p1rs|]; cbn [obind] in PP; [|discriminate PP].
    repeat match type of PP with obind ?a _ = _ => destruct a; cbn [obind] in PP; [|discriminate PP] end. injection PP as <-. cbn [ps_f]. apply (taylor_add m); [exact Tf|].
    unfold df, asph_df. cbn [rev app fold_left]. refine (taylor_ext m _ _ _ _ (taylor_mul m idx jdx abi Hm1 Hs Hi _ _ _ _ (taylor_const m Hm1 Hs (1 * 1)) Tr)). apply near_all. intros x. ring. }
  destruct (taylor_ray m idx jdx abi Hm Hs Hi _ _ TF) as (Ct & dt & _ & Dt & HT). destruct (beats (Cw + Ct) 3 (Rmin dw dt) 2 (2 * m) ltac:(lra) ltac:(apply Rmin_pos; auto) ltac:(lia)) as (h & HP & HD & HH & HB). pose proof (Rmin_l dw dt). pose proof (Rmin_r dw dt).
  assert (A1 : Rabs h <= h) by (rewrite Rabs_right; lra). assert (A0 : Rabs 0 <= h) by (rewrite Rabs_R0; lra).
  destruct (W h h 0 0 0 ltac:(lra) A1 A0 A0 A0) as (a & b & EA & EB & EC). destruct (HT h h 0 0 0 ltac:(lra) A1 A0 A0 A0) as (v & EV & EW). assert (v = b) by congruence. subst v.
  set (w := sqrt (1 - 4 * h ^ 2)). assert (W2 : w * w = 1 - 4 * h ^ 2) by (apply sqrt_sqrt; nra). assert (WP : 0 <= w) by apply sqrt_pos.
  assert (EX : a = (1 - w) / 2 + h ^ 2).
  { unfold exact_y, exact, geo_trace in EA. cbn [nth_error obind e_place] in EA. replace (1 + 0 ^ 2 + 0 ^ 2) with 1 in EA by ring. rewrite sqrt_1 in EA. replace (0 / 1) with 0 in EA by field. replace (1 / 1) with 1 in EA by field.
    assert (T1 : forall d v, to_normal (at_front d) v = Some v) by reflexivity. assert (F1 : forall d v, from_normal (at_front d) v = Some v) by reflexivity.
    rewrite !F1 in EA. cbn [sys_propagate e_place] in EA. unfold onormal in EA. cbn [obind] in EA. rewrite !T1 in EA. cbn [p_offset at_front] in EA. assert (E : vsub3 (V h 0 1) (V 0 0 1) = V h 0 0) by (apply vec_eq; cbn; ring). rewrite E in EA.
    unfold propagate in EA. cbn [e_kind obind] in EA. unfold intercept in EA. cbn [s_asph s] in EA. destruct (newton_intercept newton s (V h 0 0) (V 0 0 1)) as [t|] eqn:NI; cbn [obind get_n_mu nth_error st_y] in EA; [|discriminate EA].
    fold (at_front 1) in EA. rewrite F1 in EA. cbn [obind] in EA. assert (AT : at_ray (V h 0 0) (V 0 0 1) t = V h 0 t) by (unfold at_ray; apply vec_eq; cbn; ring). rewrite AT in EA. cbn [vz] in EA. injection EA as <-.
    unfold newton_intercept in NI. apply NW in NI. rewrite AT in NI. unfold surface_sag in NI. cbn [s_c s_k s_asph s vz] in NI. unfold r2_of in NI. cbn [vx vy] in NI. destruct (Req_EM_T 2 0); [lra|]. rewrite fsqrt_some in NI by nra. cbn [obind] in NI.
    match type of NI with context [sqrt ?x] => replace x with (1 - 4 * h ^ 2) in NI by ring end. fold w in NI. rewrite fdiv_some in NI by lra. cbn [obind] in NI. injection NI as NI. unfold asph_sag in NI. cbn [rev app fold_left] in NI.
    assert (Q : 2 * (h * h + 0 * 0) / (1 + w) = (1 - w) / 2). { apply (Rmult_eq_reg_r (2 * (1 + w))); [|lra]. field_simplify; try lra. } rewrite Q in NI. lra. }
  assert (EG : xf 2 1 (xstart 1 1 (ray_pt h 0 0 0)) + xrr 2 1 (xstart 1 1 (ray_pt h 0 0 0)) = (1 - w) / 2 + 4 * h ^ 2).
  { unfold xf, xrr. destruct (Req_EM_T 2 0); [lra|]. assert (XA : xa 2 1 (xstart 1 1 (ray_pt h 0 0 0)) = 1 - w). { unfold xa, xdisc, xkt, xrt, xfd, xstart, ray_pt. cbn [x_k x_f x_p x_r fst snd]. match goal with |- context [sqrt ?x] => replace x with (1 - 4 * h ^ 2) by ring end. fold w. replace (0 ^ 2 + 0 ^ 2 + 1) with 1 by ring. rewrite Rinv_1. ring. }
    rewrite XA. replace ((1 - w) * (- (1 - w) + 2)) with (1 - w * w) by ring. rewrite W2. lra. }
  rewrite EG in EW. rewrite EX in EC. set (G := (1 - w) / 2) in *. assert (TR : Rabs ((G + h ^ 2) - (G + 4 * h ^ 2)) <= Rabs (G + h ^ 2 - b) + Rabs (G + 4 * h ^ 2 - b)) by (replace ((G + h ^ 2) - (G + 4 * h ^ 2)) with ((G + h ^ 2 - b) - (G + 4 * h ^ 2 - b)) by ring; eapply Rle_trans; [apply Rabs_triang|rewrite Rabs_Ropp; lra]).
  rewrite Rabs_left1 in TR by nra. lra.
Qed.
Print Assumptions C43_asphere_refuted.

(** a pupil that is flagged telecentric but seen under a smaller angle than the object: the bundle starts in the object plane
    ([telecentric]) but is scaled by the pupil ([transform]); at the object itself the point of field 1 is then reported at 0 *)
Theorem C43_telecentric_refuted : forall m idx jdx abi, (2 <= m)%nat -> (Z.of_nat (simplex_size 3 m) <= 65536)%Z -> simplex_idx 3 m = Some (idx, jdx, abi) ->
  (forall e, length e = 3%nat -> (list_sum e < m)%nat -> (Z.of_nat (multinom e) < 65536)%Z) ->
  exists c, cj_finite c = true /\ cj_val c = 2 /\ pu_distance (cj_pupil c) <> 0 /\ poly_start c = Some 0 /\
  forall e0 l, exists st fuel, poly_trace abi m (simplex_size 3 m) [e0] l 0 1 = Some [st] /\
    forall f, (fuel <= f)%nat -> poly_evaluate_finite f idx jdx c st 0 0 1 0 = Some (0, 0).
Proof.
  intros m idx jdx abi Hm Hs Hi Hb. set (c := Conjugate true 2 (Pupil RadiusPupil 1 10 false false true true 1 Rectilinear) Rectilinear false). exists c. split; [reflexivity|]. split; [reflexivity|]. split; [cbn; lra|]. split; [reflexivity|]. intros e0 l.
  destruct (iter_units m Hm) as (_ & _ & _ & Q4). assert (PR : exists st, poly_rays (simplex_size 3 m) 0 1 = Some st /\ ps_t st = pzero (simplex_size 3 m)). { unfold poly_rays. destruct (Nat.ltb_spec (simplex_size 3 m) 4); [lia|]. eexists. split; reflexivity. }
  destruct PR as (st & PR & PZ). pose proof (start_taylor m ltac:(lia) Hs 0 1 st Hm PR) as T0.
  destruct (finite_evaluate m idx jdx abi Hm Hs Hi Hb c st 1 (1 / 10) (2 / 10) (proj1 (ts_s _ _ _ T0)) (proj1 (ts_t _ _ _ T0)) eq_refl) as (N & FE).
  { unfold pupil_slope. cbn [c cj_pupil pu_kind pu_val pu_distance]. apply fdiv_some. lra. }
  { unfold conj_slope. cbn [c cj_pupil cj_finite cj_val pu_distance]. apply fdiv_some. lra. }
  exists st, N. split; [unfold poly_trace; rewrite PR; reflexivity|]. intros f Hf. destruct (FE f Hf 0 0 1 0) as (e1 & e2 & -> & E1 & E2).
  assert (NT : ~ Rabs (2 / 10) < Rabs (1 / 10)) by (rewrite !Rabs_right; lra). destruct (Rlt_dec (Rabs (2 / 10)) (Rabs (1 / 10))); [contradiction|].
  unfold combine1, combine2 in E1, E2. rewrite !(value_eq m idx jdx abi Hm Hs Hi) in E1, E2 by (first [apply (proj1 (ts_s _ _ _ T0))|apply (proj1 (ts_t _ _ _ T0))]). cbn [obind] in E1, E2.
  assert (Z : forall x, peval m (ps_t st) x = 0). { intros x. rewrite PZ. unfold peval, pvalue, pzero. apply (ksum_zero R 0 1 Rplus Rmult Rminus Ropp RTheory). intros e _. rewrite coef_repeat. ring. }
  rewrite Z in E1, E2. injection E1 as <-. injection E2 as <-. f_equal. f_equal; ring.
Qed.
Print Assumptions C43_telecentric_refuted.
Example C43_refuted_example : (3 <= 4)%nat /\ (Z.of_nat (simplex_size 3 4) <= 65536)%Z /\ exists idx jdx abi, simplex_idx 3 4 = Some (idx, jdx, abi).
Proof. split; [lia|]. split; [vm_compute; discriminate|]. do 3 eexists; vm_compute; reflexivity. Qed.
