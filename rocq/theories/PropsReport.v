(** C108: the reports of whole traces: what stands beside a label is what rays and beams do. *)
From Coq Require Import Reals String Bool Arith Lia Lra List Psatz.
From Verif Require Import Base Cx Vec RotModel PlacementModel PlacementProofs LayoutModel ElementModel ParaxialModel ParaxialProofs PropsParaxial LimitProofs PropsLimit
  PupilModel PropsPupil ParaxTraceModel PropsConjugates PropsSolve PropsCardinal PropsPupils SeidelModel GaussianModel PropsBeams ResolutionModel TraceRestModel
  SimplexModel PolySeidelModel PrintModel PropsPrint ReportModel.
Import ListNotations.
Open Scope R_scope.

(** * Specification *)
(** a report shows these numbers beside this label, and beside no other mention of the label *)
Definition shows (ls : list (list cell)) (label : string) (v : list (option R)) : Prop :=
  In (Txt label :: map Num v) ls /\ forall w, In (Txt label :: w) ls -> w = map Num v.
(** a ray [y'], [u'] with the heights and optical slopes at the first and behind the last surface *)
Definition other_ray (axis : bool) (l : R) (es : list element) (h v h1 h2 v2 : R) : Prop :=
  exists y' u' rs' r1 r2, ptrace axis l es y' u' (refractive_index es l 0) = Some rs' /\ nth_error rs' 1 = Some r1 /\ back rs' 2 = Some r2 /\
    fst y' = h /\ fst u' = v /\ fst (ry r1) = h1 /\ fst (ry r2) = h2 /\ fst (ru r2) = v2.
(** a beam that is [zx], [zy] behind its waists [wx], [wy] in index [n] *)
Definition beam_at (l scale : R) (r : option cm * R) (wx zx wy zy : R) : Prop :=
  exists q n, r = (Some q, n) /\ 0 < n /\ 0 < wx /\ 0 < wy /\ c01 q = c0 /\
    c00 q = cdiv c1 (Cx (zx / n) (PI * wx ^ 2 * scale / l)) /\ c11 q = cdiv c1 (Cx (zy / n) (PI * wy ^ 2 * scale / l)).

(** * Lemmas *)
Lemma in_params es l s fin rs label v : In (label, v) (print_params es l s fin rs) -> forall w, In (label, w) (print_params es l s fin rs) -> w = v.
Proof.
  assert (U : forall (es : list entry), NoDup (map fst es) -> forall label v w, In (label, v) es -> In (label, w) es -> w = v).
  { clear. induction es as [|[a x] es IH]; intros ND label v w A B; [destruct A|]. cbn in ND. inversion ND as [|? ? NI ND']; subst.
    destruct A as [A|A], B as [B|B].
    - congruence.
    - exfalso. apply NI. apply in_map_iff. exists (label, w). split; [cbn; congruence|auto].
    - exfalso. apply NI. apply in_map_iff. exists (label, v). split; [cbn; congruence|auto].
    - eapply IH; eauto. }
  intros A w B. eapply U; [|exact A|exact B]. cbn [print_params map fst]. repeat (constructor; [cbn; intuition discriminate|]). constructor.
Qed.
Lemma shows_param es l s fin rs label v : In (label, v) (print_params es l s fin rs) -> shows (map param_line (print_params es l s fin rs)) label v.
Proof.
  intros H. split; [apply in_map_iff; exists (label, v); auto|]. intros w W. apply in_map_iff in W. destruct W as ((a & x) & E & I). unfold param_line in E. cbn in E. injection E as -> <-.
  f_equal. eapply in_params; eauto.
Qed.
Lemma shown_value ls label v w : shows ls label v -> shows ls label w -> w = v.
Proof.
  intros (_ & U) (I & _). apply U in I. clear U. revert w I. induction v as [|a v IH]; intros [|b w] E; try discriminate; [reflexivity|]. cbn in E. injection E as -> E. f_equal. auto.
Qed.
Lemma both_some o a b : both o = [Some a; Some b] -> o = Some (a, b).
Proof. destruct o as [[x y]|]; cbn; [intros E; injection E as -> ->; reflexivity|discriminate]. Qed.
Lemma shown_in ps label v : shows (map param_line ps) label v -> In (label, v) ps.
Proof.
  intros (I & _). apply in_map_iff in I. destruct I as ((a & x) & E & I). unfold param_line in E. cbn in E. injection E as -> E.
  assert (X : x = v) by (revert v E; clear; induction x as [|a x IH]; intros [|b v] E; try discriminate; [reflexivity|]; cbn in E; injection E as -> E; f_equal; auto). subst x. exact I.
Qed.
Ltac shown H := apply shown_in in H; cbn [print_params In] in H;
  repeat (destruct H as [H|H]; [first [discriminate H|apply (f_equal snd) in H; cbn [snd] in H]|]); [|destruct H].

(** * C108 *)
(** every one of the fourteen labels stands once in the report of a paraxial trace, before the two tables, which are those of C83 *)
Theorem C108_text es l s fin rs xs ls : paraxial_text es l s fin rs xs = Some ls ->
  exists t c, print_paraxial es rs = Some t /\ print_transverse3 es xs = Some c /\
    (forall i x, nth_error t i = Some x -> nth_error ls (15 + i) = Some x) /\
    (forall i x, nth_error c i = Some x -> nth_error ls (16 + List.length t + i) = Some x) /\
    List.length ls = (17 + List.length t + List.length c)%nat /\
    forall label v, In (label, v) (print_params es l s fin rs) -> shows ls label v.
Proof.
  unfold paraxial_text. destruct (print_paraxial es rs) as [t|] eqn:T; [|discriminate]. cbn [obind]. destruct (print_transverse3 es xs) as [c|] eqn:C; [|discriminate]. cbn [obind]. intros E.
  set (ps := print_params es l s fin rs) in *. assert (LP : List.length (map param_line ps) = 14%nat) by reflexivity.
  assert (EL : ls = map param_line ps ++ gap ++ t ++ gap ++ c ++ gap) by congruence. clear E. subst ls. exists t, c. split; [reflexivity|]. split; [reflexivity|]. split; [|split; [|split]].
  - intros i x X. rewrite nth_error_app2 by (rewrite LP; lia). rewrite LP. replace (15 + i - 14)%nat with (S i) by lia. cbn [gap app nth_error]. rewrite nth_error_app1; [exact X|]. apply nth_error_Some. congruence.
  - intros i x X. rewrite nth_error_app2 by (rewrite LP; lia). rewrite LP. replace (16 + List.length t + i - 14)%nat with (S (List.length t + S i)) by lia. cbn [gap app nth_error]. rewrite nth_error_app2 by lia.
    replace (List.length t + S i - List.length t)%nat with (S i) by lia. cbn [nth_error]. rewrite nth_error_app1; [exact X|]. apply nth_error_Some. congruence.
  - rewrite !app_length, LP. unfold gap. cbn [List.length]. lia.
  - intros label v I. destruct (shows_param es l s fin rs label v I) as (A & B). fold ps in A, B. split; [apply in_or_app; left; exact A|]. intros w W. apply in_app_or in W. destruct W as [W|W]; [apply B; exact W|]. exfalso.
    assert (NE : label <> EmptyString /\ label <> "#"%string).
    { unfold ps, print_params in I. cbn [In] in I. repeat (destruct I as [I|I]; [injection I as <- _; split; discriminate|]). destruct I. }
    assert (CL : forall k es' co i r, coeff_lines k es' co i = Some r -> ~ In (Txt label :: w) r).
    { clear. intros k es' co. induction co as [|a co IH]; intros i r H N; cbn in H; [injection H as <-; destruct N|].
      destruct (nth_error es' i) as [e|]; [|discriminate]. cbn in H. destruct (typeletter (e_kind e)); [|discriminate]. cbn in H. destruct (Nat.eqb _ _); [|discriminate].
      destruct (coeff_lines k es' co (S i)) as [r'|] eqn:Q; [|discriminate]. cbn in H. injection H as <-. destruct N as [N|N]; [discriminate N|]. eapply IH; eauto. }
    assert (PC : forall co labels sum r, print_coeffs es co labels sum = Some r -> ~ In (Txt label :: w) r).
    { intros co labels sum r H N. unfold print_coeffs in H. destruct (coeff_lines _ _ _ _) as [r'|] eqn:Q; [|discriminate]. cbn in H. injection H as <-. destruct N as [N|N]; [injection N as N _; apply (proj2 NE); auto|].
      apply in_app_or in N. destruct N as [N|N]; [eapply CL; eauto|]. destruct sum; [|destruct N]. destruct N as [N|N]; [injection N as N _; apply (proj1 NE); auto|destruct N]. }
    cbn [gap app In] in W. destruct W as [W|W]; [injection W as W _; apply (proj1 NE); auto|]. apply in_app_or in W. destruct W as [W|W]; [unfold print_paraxial in T; eapply PC; [exact T|exact W]|].
    destruct W as [W|W]; [injection W as W _; apply (proj1 NE); auto|]. apply in_app_or in W. destruct W as [W|W]; [unfold print_transverse3 in C; eapply PC; [exact C|exact W]|].
    destruct W as [W|W]; [injection W as W _; apply (proj1 NE); auto|destruct W].
Qed.
(** in air: the numbers beside focal length, focal distance, principal and nodal points say where every other ray goes *)
Theorem C108_cardinal axis l s fin es y u rs ls f0 f1 fd0 fd1 pd0 pd1 nd0 nd1 e1 h v h1 h2 v2 :
  Forall upright es -> (3 <= List.length es)%nat -> nth_error es 1 = Some e1 -> plain_surface l 1 e1 -> refractive_index es l 0 = 1 ->
  ptrace axis l es y u 1 = Some rs -> (exists r2, back rs 2 = Some r2 /\ rn r2 = 1) ->
  ls = map param_line (print_params es l s fin rs) ->
  shows ls "front, back focal length (from PP)" [Some f0; Some f1] -> shows ls "front, back focal distance" [Some fd0; Some fd1] ->
  shows ls "front, back principal distance" [Some pd0; Some pd1] -> shows ls "front, back nodal distance" [Some nd0; Some nd1] ->
  other_ray axis l es h v h1 h2 v2 ->
  (v = 0 -> h = - v2 * f1 /\ h2 + fd1 * v2 = 0 /\ h2 + pd1 * v2 = h) /\
  (v2 = 0 -> h2 = - v * f0 /\ h1 + fd0 * v = 0 /\ h1 + pd0 * v = h2) /\
  nd0 = pd0 /\ nd1 = pd1.
Proof.
  intros U L E1 P1 N0 TR (q2 & Q2 & NQ) -> SF SD SP SN (y' & u' & rs' & r1 & r2 & TR' & B1 & B2 & <- & <- & <- & <- & <-).
  shown SF. shown SD. shown SP. shown SN. apply both_some in SF, SD, SP, SN.
  assert (NR : rn r2 = 1).
  { destruct (back2 axis l es U L y u rs ltac:(rewrite N0; exact TR)) as (M & a2 & A2 & _ & _ & _ & _ & X). rewrite Q2 in A2. injection A2 as <-.
    destruct (back2 axis l es U L y' u' rs' TR') as (M' & b2 & B2' & _ & _ & _ & _ & X'). rewrite B2 in B2'. injection B2' as <-. congruence. }
  rewrite <- N0 in TR. destruct (C49_focal_length axis l es y u rs f0 f1 y' u' rs' r2 U L TR SF TR' B2 ltac:(lra) ltac:(lra)) as (FA & FB).
  destruct (C49_focal_points axis l es y u rs fd0 fd1 pd0 pd1 y' u' rs' r1 r2 e1 U L E1 P1 TR SD SP TR' B1 B2 N0 NR) as (GA & GB). rewrite NR, N0 in *.
  split; [intros Z; specialize (FA Z); destruct (GA Z) as (G1 & G2); repeat split; [|exact G1|exact G2]; rewrite FA; field|].
  split; [intros Z; specialize (FB Z); destruct (GB Z) as (G1 & G2); repeat split; [|exact G1|exact G2]; rewrite FB; field|].
  pose proof (ptrace_0 _ _ _ _ _ _ _ TR) as Z0.
  unfold nodal_distance in SN. unfold principal_distance in SP. rewrite SD, SF in SN, SP. cbn [obind fst snd] in SN, SP. injection SN as <- <-. injection SP as <- <-.
  unfold focal_length in SF. destruct (lagrange rs); [|discriminate]. cbn [obind] in SF. rewrite Z0, Q2 in SF. cbn [obind rn] in SF. destruct (fdiv _ _) as [f|]; [|discriminate]. cbn [obind] in SF. rewrite NQ in SF. injection SF as <- <-. split; ring.
Qed.
(** pupils: beside their labels stand the places and radii through which every other ray goes in proportion to its height in the stop *)
Theorem C108_pupils axis l s fin es y u rs ls d0 d1 h0 h1 k rk y' u' rs' rk' r1 r2 f :
  Forall upright es -> (2 <= List.length es)%nat ->
  ptrace axis l es y u (refractive_index es l 0) = Some rs -> lagrange rs <> Some 0 ->
  ls = map param_line (print_params es l s fin rs) ->
  shows ls "entry, exit pupil distance" [Some d0; Some d1] -> shows ls "entry, exit pupil height" [Some h0; Some h1] ->
  nth_error rs k = Some rk -> snd (ry rk) = 0 -> fst (ry rk) <> 0 ->
  ptrace axis l es y' u' (refractive_index es l 0) = Some rs' -> nth_error rs' k = Some rk' -> fst (ry rk') = f * fst (ry rk) ->
  nth_error rs' 1 = Some r1 -> back rs' 2 = Some r2 ->
  Rabs (fst (ry r1) + d0 * (fst u' / refractive_index es l 0)) = Rabs f * h0 /\
  Rabs (fst (ry r2) + d1 * (fst (ru r2) / rn r2)) = Rabs f * h1.
Proof.
  intros U L TR LG -> SD SH. shown SD. shown SH. apply both_some in SD, SH. intros NK CK MK TR' NK' FK B1 B2.
  exact (C53_pupils axis l es y u rs d0 d1 h0 h1 k rk y' u' rs' rk' r1 r2 f U L TR LG SD SH NK CK MK TR' NK' FK B1 B2).
Qed.
(** magnification: beside the label stand image height over object height of a focused system, and the ratio of the slopes through the pupils *)
Theorem C108_magnification axis l s fin es y u rs ls mt ma last r2 el :
  Forall upright es -> (3 <= List.length es)%nat -> nth_error es (List.length es - 1) = Some el ->
  ptrace axis l es y u (refractive_index es l 0) = Some rs -> ls = map param_line (print_params es l s fin rs) ->
  shows ls "transverse, angular magnification" [Some mt; Some ma] ->
  back rs 1 = Some last -> back rs 2 = Some r2 -> plain_surface l (rn r2) el -> fst y = 0 -> fst (ry last) = 0 ->
  snd (ry last) = mt * snd y /\ shows ls "object, image height" [Some (Rabs (snd y)); Some (Rabs (mt * snd y))].
Proof.
  intros U L E TR -> SM BL B2 PL Y0 YL. shown SM. apply both_some in SM.
  assert (M : snd (ry last) = mt * snd y) by (exact (C49_magnification axis l es y u rs mt ma last r2 el U L E TR SM BL B2 PL Y0 YL)). split; [exact M|]. rewrite <- M. apply shows_param.
  assert (HO : height_object rs = Some (Rabs (snd y))) by (unfold height_object; rewrite (ptrace_0 _ _ _ _ _ _ _ TR); reflexivity).
  assert (HI : height_image rs = Some (Rabs (snd (ry last)))) by (unfold height_image; rewrite BL; reflexivity).
  rewrite <- HO, <- HI. cbn [print_params In]. tauto.
Qed.
(** the spots beside the airy label are lengths in the unit of the system, 0.61 wavelengths over the aperture shown *)
Theorem C108_airy es l s fin rs ls a b : 0 < s -> a <> 0 -> b <> 0 -> ls = map param_line (print_params es l s fin rs) ->
  shows ls "front, back numerical aperture" [Some a; Some b] ->
  shows ls "front, back airy radius" [Some (61 / 100 * (l / s) / a); Some (61 / 100 * (l / s) / b)].
Proof.
  intros S A B -> SN. shown SN. injection SN as SA SB. apply shows_param.
  assert (Q : forall na c, na = Some c -> c <> 0 -> airy_of l s na = Some (61 / 100 * (l / s) / c)).
  { intros na c -> C. unfold airy_of, airy_radius. cbn [obind]. rewrite fdiv_some by lra. cbn [obind]. rewrite fdiv_some by lra. f_equal. field. split; lra. }
  rewrite <- (Q _ _ SA A), <- (Q _ _ SB B). cbn [print_params In]. tauto.
Qed.
(** beams: one line per surface with path, both spots, no rotation, the way to both waists and their radii *)
Theorem C108_beam es l scale rows : 0 < l -> 0 < scale -> List.length rows = List.length es -> Forall is_surface es ->
  (forall r, In r rows -> exists wx zx wy zy, beam_at l scale r wx zx wy zy) ->
  exists ls, beam_text es l scale rows = Some ls /\ List.length ls = (2 + List.length es)%nat /\
    nth_error ls 0 = Some (map Txt ["#"; "T"; "path"; "spot a"; "spot b"; "spot ang"; "waistx dz"; "waisty dz"; "waist x"; "waist y"])%string /\
    nth_error ls (S (List.length es)) = Some [Txt ""%string] /\
    forall i r wx zx wy zy, nth_error rows i = Some r -> beam_at l scale r wx zx wy zy ->
      let spot w z := w * sqrt (1 + (z / (PI * snd r * w ^ 2 * scale / l)) ^ 2) in
      exists z, z = fold_right Rplus 0 (map (fun e => p_distance (e_place e)) (firstn (S i) es)) /\
      nth_error ls (S i) = Some (Int i :: Txt "S"%string :: map (fun x => Num (Some x)) [z; spot wx zx; spot wy zy; 0; - zx; - zy; wx; wy]).
Proof.
  intros LP SP LE SU BE.
  assert (ROW : forall z r wx zx wy zy, beam_at l scale r wx zx wy zy -> let spot w z := w * sqrt (1 + (z / (PI * snd r * w ^ 2 * scale / l)) ^ 2) in
    beam_row l scale z r = map Some [z; spot wx zx; spot wy zy; 0; - zx; - zy; wx; wy]).
  { intros z r wx zx wy zy (q & n & -> & N & WX & WY & C01 & C00 & C11) spot. unfold beam_row. cbn [fst snd obind].
    destruct (textbook_axis l n scale wx zx false q LP N SP WX C00) as (SX & _ & _ & PX & _ & RX).
    destruct (textbook_axis l n scale wy zy true q LP N SP WY C11) as (SY & _ & _ & PY & _ & RY).
    assert (NEG : forall w z q, 0 < w -> q = cdiv c1 (Cx (z / n) (PI * w ^ 2 * scale / l)) -> im q < 0).
    { intros w z' q' W ->. pose proof PI_RGT_0 as PP. assert (Z0 : 0 < PI * w ^ 2 * scale / l) by (apply Rdiv_lt_0_compat; [|auto]; apply Rmult_lt_0_compat; [|auto]; apply Rmult_lt_0_compat; [auto|apply pow_lt; auto]).
      destruct (inv_parts (z' / n) (PI * w ^ 2 * scale / l) ltac:(lra)) as (_ & ->). pose proof (sq_pos (z' / n) (PI * w ^ 2 * scale / l) ltac:(lra)) as SQ.
      set (d := z' / n * (z' / n) + _) in *. pose proof (Rinv_0_lt_compat d SQ). unfold Rdiv at 1. set (z0 := PI * w ^ 2 * scale / l) in *. nra. }
    destruct (C38_normal_spot l scale q LP SP (NEG _ _ _ WX C00) (NEG _ _ _ WY C11)) as (x & y & SN & X & Y & _); [rewrite C01; reflexivity|].
    rewrite SX in X. rewrite SY in Y. injection X as X. injection Y as Y. rewrite SN, PX, PY, RX, RY. cbn [obind fst snd map]. rewrite <- X, <- Y. unfold spot.
    replace (0 * 180 / PI) with 0 by (field; apply PI_neq0). reflexivity. }
  set (zs := combine (path (map e_place es)) rows).
  assert (LC : forall k acc, List.length (LayoutModel.cumsum1 acc k) = List.length k) by (induction k; intros; cbn; auto).
  assert (LZ : List.length zs = List.length es) by (unfold zs, path; rewrite combine_length, LC, !map_length; lia).
  assert (EXR : exists xs, map (fun zr => beam_row l scale (fst zr) (snd zr)) zs = map (map Some) xs /\ Forall (fun x => List.length x = 8%nat) xs /\ List.length xs = List.length zs).
  { assert (I : forall zr, In zr zs -> In (snd zr) rows) by (intros (z & r) I; apply in_combine_r in I; exact I). clearbody zs. clear LZ. induction zs as [|zr zs IH]; [exists []; cbn; repeat split; auto|].
    destruct IH as (xs & E & F & G); [intros; apply I; right; auto|]. destruct (BE (snd zr) (I zr (or_introl eq_refl))) as (wx & zx & wy & zy & B).
    eexists (_ :: xs). cbn [map]. rewrite E, (ROW _ _ _ _ _ _ B). split; [reflexivity|]. split; [constructor; [reflexivity|exact F]|cbn; congruence]. }
  destruct EXR as (xs & EX & FX & LX). unfold beam_text, print_beam. fold zs. rewrite EX.
  destruct (C83_coeffs es xs ["path"; "spot a"; "spot b"; "spot ang"; "waistx dz"; "waisty dz"; "waist x"; "waist y"]%string false) as (EXI & SPEC).
  destruct (proj2 EXI) as (ls & LS).
  { intros i x X. rewrite Forall_forall in FX. split; [apply FX; eapply nth_error_In; eauto|].
    assert (I : (i < List.length es)%nat) by (rewrite <- LZ, <- LX; apply nth_error_Some; congruence).
    destruct (nth_error es i) as [e|] eqn:E; [|apply nth_error_None in E; lia]. exists e. split; auto. rewrite Forall_forall in SU. apply SU. eapply nth_error_In; eauto. }
  rewrite LS. cbn [obind]. destruct (SPEC ls LS) as (H0 & HR & HL & _). specialize (HL eq_refl). rewrite LX, LZ in HL. exists (ls ++ gap). split; [reflexivity|].
  split; [rewrite app_length, HL; unfold gap; cbn; lia|]. split; [rewrite nth_error_app1 by lia; exact H0|]. split; [rewrite nth_error_app2 by lia; rewrite HL, Nat.sub_diag; reflexivity|].
  intros i r wx zx wy zy X B. set (spot := fun w z => w * sqrt (1 + (z / (PI * snd r * w ^ 2 * scale / l)) ^ 2)).
  change (wx * sqrt _) with (spot wx zx). change (wy * sqrt _) with (spot wy zy). eexists. split; [reflexivity|].
  assert (PZ : forall k acc i, (i < List.length k)%nat -> nth_error (LayoutModel.cumsum1 acc k) i = Some (acc + fold_right Rplus 0 (firstn (S i) k))).
  { clear. induction k as [|v k IH]; intros acc [|i] K; cbn [List.length] in K; try lia; cbn [LayoutModel.cumsum1 nth_error].
    - cbn. f_equal. ring.
    - rewrite IH by lia. cbn [firstn fold_right]. f_equal. ring. }
  assert (I : (i < List.length es)%nat) by (rewrite <- LE; apply nth_error_Some; congruence).
  rewrite nth_error_app1 by lia. set (z := fold_right Rplus 0 _).
  assert (ZS : nth_error zs i = Some (z, r)).
  { unfold zs. rewrite nth_error_combine, X. unfold path. rewrite PZ by (rewrite !map_length; auto). unfold z. rewrite map_map, Rplus_0_l, firstn_map. reflexivity. }
  apply HR.
  assert (Q : nth_error (map (map Some) xs) i = Some (map Some [z; spot wx zx; spot wy zy; 0; - zx; - zy; wx; wy])).
  { rewrite <- EX, nth_error_map, ZS. cbn [option_map fst snd]. f_equal. apply (ROW z r wx zx wy zy B). }
  rewrite nth_error_map in Q. destruct (nth_error xs i) as [x|]; [|discriminate]. cbn [option_map] in Q. f_equal.
  assert (Q' : map Some x = map Some [z; spot wx zx; spot wy zy; 0; - zx; - zy; wx; wy]) by congruence.
  revert Q'. generalize [z; spot wx zx; spot wy zy; 0; - zx; - zy; wx; wy]. clear. induction x as [|a x IH]; intros [|b k] E; try discriminate; [reflexivity|]. cbn in E. injection E as -> E. f_equal. auto.
Qed.
(** the Rayleigh range beside the airy radius is that of a beam with this waist in vacuum; in index [n] the beam has [n] times as much *)
Theorem C108_rayleigh l s na r n : 0 < l -> 0 < s -> 0 < na -> 0 < n -> airy_radius l s na = Some r ->
  exists zr q, ResolutionModel.rayleigh_range l s na = Some zr /\ make_qi l n s (r, r) (0, 0) 0 = Some q /\
    spot_radius l s true q = Some r /\ GaussianModel.rayleigh_range n true q = Some (n * zr).
Proof.
  intros L S A N H. assert (RP : 0 < r).
  { unfold airy_radius in H. rewrite fdiv_some in H by lra. cbn [obind] in H. rewrite fdiv_some in H by lra. injection H as <-. apply Rdiv_lt_0_compat; [apply Rdiv_lt_0_compat; lra|lra]. }
  destruct (C38_textbook l n s r r 0 0 0 L N S RP RP) as (q & q' & Q & Q' & _ & T). exists (PI * r ^ 2 / l * s), q.
  split; [unfold ResolutionModel.rayleigh_range; rewrite H; cbn [obind]; rewrite fdiv_some by lra; reflexivity|]. split; [exact Q|].
  assert (QQ : q' = q).
  { unfold make_qi in Q. cbn [fst snd] in Q. destruct (qi_axis_some l n s r 0 L N S RP) as (ZX & QX). rewrite QX in Q. cbn [obind] in Q. rewrite cos_0, sin_0, Ropp_0 in Q. change (rc 0) with c0 in Q. change (rc 1) with c1 in Q.
    set (zx := PI * r ^ 2 * s / l) in *. assert (E : q = CM (cdiv c1 (Cx (0 / n) zx)) c0 c0 (cdiv c1 (Cx (0 / n) zx))) by (injection Q as <-; cm_ring).
    rewrite E in Q'. rewrite free_diag in Q' by (cbn; lra). injection Q' as <-. rewrite E. assert (ZZ : cadd (Cx (0 / n) zx) (rc (0 / n)) = Cx (0 / n) zx) by (apply cx_eq; cbn; field; lra). rewrite ZZ. reflexivity. }
  subst q'. destruct T as (T1 & _ & _ & _ & T2 & _). split.
  - rewrite T1. f_equal. replace (1 + ((0 + 0) / (PI * n * r ^ 2 * s / l)) ^ 2) with 1; [rewrite sqrt_1; ring|]. replace (0 + 0) with 0 by ring. unfold Rdiv at 1. rewrite Rmult_0_l. ring.
  - rewrite T2. f_equal. field. lra.
Qed.
(** the report of a polynomial trace starts with the order and the wavelength in nanometres, then come both tables of C83 *)
Theorem C108_poly order l i j s t ls : poly_text order l i j s t = Some ls ->
  exists e, print_seidel s t = Some e /\ List.length e = 17%nat /\ nth_error ls 0 = Some [Txt "maximum order"%string; Int order] /\
    (exists w, nth_error ls 1 = Some [Txt "wavelength"%string; Num (Some w)] /\ l = w / 10 ^ 9) /\
    (forall k x, nth_error e k = Some x -> nth_error ls (3 + k) = Some x) /\
    (forall k x, nth_error (print_names i j s t) k = Some x -> nth_error ls (21 + k) = Some x) /\
    List.length ls = (22 + List.length (print_names i j s t))%nat.
Proof.
  unfold poly_text. destruct (print_seidel s t) as [e|] eqn:E; [|discriminate]. cbn [obind]. intros H. destruct (C83_seidel s t e E) as (v & _ & LE & _). exists e.
  assert (EL : ls = poly_params order l ++ gap ++ e ++ gap ++ print_names i j s t ++ gap) by congruence. subst ls. clear H. unfold poly_params, gap.
  split; [reflexivity|]. split; [exact LE|]. split; [reflexivity|]. split; [eexists; split; [reflexivity|field]|]. split; [|split].
  - intros k x X. cbn [app nth_error Nat.add]. rewrite nth_error_app1; [exact X|]. apply nth_error_Some. congruence.
  - intros k x X. change (21 + k)%nat with (S (S (S (18 + k)))). cbn [app nth_error]. rewrite nth_error_app2 by lia. rewrite LE. replace (18 + k - 17)%nat with (S k) by lia. cbn [nth_error]. rewrite nth_error_app1; [exact X|]. apply nth_error_Some. congruence.
  - cbn [app List.length]. rewrite app_length. cbn [List.length]. rewrite app_length, LE. cbn [List.length]. lia.
Qed.
(** ** the water lens of C49 and C53, focused at finite distance: all hypotheses and what the report says *)
Example C108_cardinal_example : exists es rs e1 el last r2, Forall upright es /\ (3 <= List.length es)%nat /\ nth_error es 1 = Some e1 /\ plain_surface 1 1 e1 /\ refractive_index es 1 0 = 1 /\
  ptrace true 1 es (0, -1) (1, 1/9) 1 = Some rs /\ back rs 1 = Some last /\ back rs 2 = Some r2 /\ rn r2 = 1 /\ nth_error es (List.length es - 1) = Some el /\ plain_surface 1 (rn r2) el /\ fst (ry last) = 0 /\ lagrange rs <> Some 0 /\
  let ls := map param_line (print_params es 1 1 true rs) in
  shows ls "front, back focal length (from PP)" [Some (-72/11); Some (72/11)] /\ shows ls "entry, exit pupil distance" [Some 0; Some (-18/7)] /\
  shows ls "entry, exit pupil height" [Some 9; Some (72/7)] /\ shows ls "transverse, angular magnification" [Some (-2); Some (7/8)] /\
  (exists a b, shows ls "front, back focal distance" [Some a; Some b]) /\ (exists a b, shows ls "front, back principal distance" [Some a; Some b]) /\ (exists a b, shows ls "front, back nodal distance" [Some a; Some b]) /\
  (exists a b, shows ls "front, back numerical aperture" [Some a; Some b] /\ a <> 0 /\ b <> 0) /\
  other_ray true 1 es 1 0 1 (3/4) (-11/72).
Proof.
  destruct (centred_axis 0) as (p0 & E0 & _); [lra|]. destruct (centred_axis 3) as (p3 & E3 & _); [lra|].
  destruct (centred_axis 9) as (p9 & E9 & _); [lra|]. destruct (centred_axis 18) as (p18 & E18 & _); [lra|].
  destruct (lens3_trace p0 p3 p9 p18 E0 E3 E9 E18) as (U & PS & _ & T). cbv zeta in T. exists (lens3 p0 p3 p9 p18).
  pose proof (T (0, -1) (1, 1/9)) as T1. cbn [fst snd] in T1. set (rs := [_; _; _; _]) in T1. exists rs. do 4 eexists.
  split; [exact U|]. split; [cbn; lia|]. split; [reflexivity|]. split; [apply PS; cbn; tauto|]. split; [reflexivity|]. split; [exact T1|]. split; [reflexivity|]. split; [reflexivity|]. split; [reflexivity|]. split; [reflexivity|]. split; [apply PS; cbn; tauto|].
  split; [cbn [ry fst]; field|]. split; [unfold lagrange, rs; cbn; intros E; injection E as E; lra|]. intros ls.
  assert (PD : ppupil_distance rs = Some (0, -18/7)).
  { unfold ppupil_distance, back, rs. cbn [List.length Nat.leb Nat.sub nth_error obind ry ru rn fst snd]. rewrite !fdiv_some by lra. cbn [obind]. f_equal. f_equal; field. }
  assert (PH : ppupil_height rs = Some (9, 72/7)).
  { unfold ppupil_height. rewrite PD. unfold back, rs. cbn [List.length Nat.leb Nat.sub nth_error obind ry ru rn fst snd]. rewrite !fdiv_some by lra. cbn [obind]. f_equal. f_equal; rewrite Rabs_right; lra. }
  assert (FL : focal_length rs = Some (-72/11, 72/11)).
  { unfold focal_length, lagrange, back, rs. cbn [List.length Nat.leb Nat.sub nth_error obind ry ru rn fst snd]. rewrite !fdiv_some by lra. cbn [obind]. f_equal. f_equal; field. }
  assert (MG : magnification rs = Some (-2, 7/8)).
  { unfold magnification, back, rs. cbn [List.length Nat.leb Nat.sub nth_error obind ry ru rn fst snd]. rewrite !fdiv_some by lra. cbn [obind]. f_equal. f_equal; field. }
  assert (FD : exists a b, focal_distance rs = Some (a, b)).
  { do 2 eexists. unfold focal_distance. rewrite FL. unfold lagrange, back, rs. cbn [List.length Nat.leb Nat.sub nth_error obind ry ru rn fst snd]. rewrite !fdiv_some by lra. cbn [obind]. rewrite !fdiv_some by lra. cbn [obind fst snd]. reflexivity. }
  destruct FD as (a & b & FD).
  assert (PRD : principal_distance rs = Some (a - -72/11, b - 72/11)) by (unfold principal_distance; rewrite FD, FL; reflexivity).
  assert (NDD : nodal_distance rs = Some (72/11 + a, -72/11 + b)) by (unfold nodal_distance; rewrite FD, FL; reflexivity).
  assert (B : forall o x y, o = Some (x, y) -> [Some x; Some y] = both o) by (intros o x y ->; reflexivity).
  split; [apply shows_param; rewrite (B _ _ _ FL); cbn [print_params In]; tauto|]. split; [apply shows_param; rewrite (B _ _ _ PD); cbn [print_params In]; tauto|].
  split; [apply shows_param; rewrite (B _ _ _ PH); cbn [print_params In]; tauto|]. split; [apply shows_param; rewrite (B _ _ _ MG); cbn [print_params In]; tauto|].
  split; [do 2 eexists; apply shows_param; rewrite (B _ _ _ FD); cbn [print_params In]; tauto|]. split; [do 2 eexists; apply shows_param; rewrite (B _ _ _ PRD); cbn [print_params In]; tauto|].
  split; [do 2 eexists; apply shows_param; rewrite (B _ _ _ NDD); cbn [print_params In]; tauto|]. split.
  - assert (S : 0 < sinarctan 1). { unfold sinarctan. assert (0 < sqrt (1 + 1 * 1)) by (apply sqrt_lt_R0; lra). apply Rmult_lt_0_compat; [lra|]. apply Rdiv_lt_0_compat; lra. }
    exists (sinarctan 1), (sinarctan 1 / 2).
    assert (NO : na_object rs = Some (sinarctan 1)).
    { unfold na_object, na_side, rs. cbn [nth_error obind ry ru rn fst snd]. rewrite fdiv_some by lra. cbn [obind]. replace (1 / 1) with 1 by field. rewrite Rmult_1_l, Rabs_pos_eq by lra. reflexivity. }
    assert (NI : na_image true rs = Some (sinarctan 1 / 2)).
    { unfold na_image, na_side, back, rs. cbn [List.length Nat.leb Nat.sub nth_error obind ry ru rn fst snd]. rewrite !fdiv_some by lra. cbn [obind]. rewrite fdiv_some by lra. cbn [obind]. replace (1 / 1) with 1 by field.
      f_equal. match goal with |- Rabs ?x = _ => replace x with (- (sinarctan 1 / 2)) by field end. rewrite Rabs_Ropp, Rabs_pos_eq by lra. reflexivity. }
    split; [|split; lra]. rewrite <- NO, <- NI. apply shows_param. cbn [print_params In]. tauto.
  - pose proof (T (1, 0) (0, 0)) as T2. cbn [fst snd] in T2. set (rs2 := [_; _; _; _]) in T2. exists (1, 0), (0, 0), rs2. do 2 eexists. split; [exact T2|]. split; [reflexivity|]. split; [reflexivity|]. cbn [ry ru fst snd]. repeat split; lra.
Qed.
(** the text of two surfaces *)
Example C108_text_example p : let r := PRow (1, 0) (0, 1) 1 in exists ls, paraxial_text (block p p) 1 1 false [r; r; r] [Coefs 1 2 3 4 5 6 7] = Some ls.
Proof.
  intros r. destruct (C83_paraxial (block p p) [r; r; r]) as (t & T & _); [reflexivity|repeat constructor; discriminate|].
  destruct (C83_transverse3 (block p p) [Coefs 1 2 3 4 5 6 7]) as (c & C & _); [cbn; lia|repeat constructor; discriminate|].
  unfold paraxial_text. rewrite T, C. cbn [obind]. eexists. reflexivity.
Qed.
(** a beam at its waist and one Rayleigh length behind it *)
Example C108_beam_example p : let q z := CM (cdiv c1 (Cx z PI)) c0 c0 (cdiv c1 (Cx z PI)) in let rows := [(Some (q 0), 1); (Some (q PI), 1); (Some (q PI), 1)] in
  List.length rows = List.length (block p p) /\ Forall is_surface (block p p) /\ beam_at 1 1 (Some (q 0), 1) 1 0 1 0 /\ beam_at 1 1 (Some (q PI), 1) 1 PI 1 PI /\
  forall r, In r rows -> exists wx zx wy zy, beam_at 1 1 r wx zx wy zy.
Proof.
  intros q rows. split; [reflexivity|]. split; [repeat constructor; discriminate|].
  assert (B : forall z, beam_at 1 1 (Some (q z), 1) 1 z 1 z).
  { intros z. exists (q z), 1. repeat split; try lra; cbn [q c00 c11]; replace (z / 1) with z by field; replace (PI * 1 ^ 2 * 1 / 1) with PI by field; reflexivity. }
  split; [apply B|]. split; [apply B|]. intros r [<-|[<-|[<-|[]]]]; do 4 eexists; apply B.
Qed.
Example C108_rayleigh_example : exists r, airy_radius 1 1 (61/100) = Some r /\ r = 1.
Proof. unfold airy_radius. rewrite fdiv_some by lra. cbn [obind]. rewrite fdiv_some by lra. eexists. split; [reflexivity|field]. Qed.
Example C108_poly_example : exists i j ls, simplex_enum 3 3 = Some (i, j) /\ poly_text 3 (1 / 2 / 10 ^ 6) i j (repeat 1 10) (repeat 2 10) = Some ls.
Proof.
  destruct C83_seidel_example as (e & E & _). destruct C83_poly_lines_example as (i & j & _ & EN & _). exists i, j. eexists. split; [exact EN|]. unfold poly_text. rewrite E. cbn [obind]. reflexivity.
Qed.
