(** How neighbouring rays separate: the antisymmetric product of two small displacements of a ray. *)
From Coq Require Import Reals ZArith List Lra Lia Psatz.
From Verif Require Import Base Vec RotModel RotProofs PlacementModel PlacementProofs ElementModel ElementProofs TraceProofs
  PropsElement PropsTrace OpdModel PropsOpd FirstOrder Hamilton.
Import ListNotations.
Open Scope R_scope.

(** ** the normal of a surface of revolution turns symmetrically *)
Lemma deriv_slope l : forall j x, exists b, derivable_pt_lim (even_slope j l) x b.
Proof.
  induction l as [|a l IH]; intros j x; cbn [even_slope].
  - exists 0. apply derivable_pt_lim_const.
  - destruct (IH (S j) x) as (b & D). exists (2 * (INR j + 1) * a * (INR j * x ^ pred j) + b).
    apply (derivable_pt_lim_plus (fun r2 => 2 * (INR j + 1) * a * r2 ^ j) (even_slope (S j) l)); [|exact D].
    apply (derivable_pt_lim_scal (fun r2 => r2 ^ j)). apply derivable_pt_lim_pow.
Qed.
(** second derivative of the sag at [y] applied to [d]: [A d + B (y.d) y] in the transverse plane *)
Definition turn (y : vec) (A B : R) (d : vec) : vec :=
  V (A * vx d + B * vx y * (vx y * vx d + vy y * vy d)) (A * vy d + B * vy y * (vx y * vx d + vy y * vy d)) 0.
Lemma turn_sym y A B d e : dot (turn y A B d) e = dot (turn y A B e) d.
Proof. unfold turn, dot. cbn [vx vy vz]. ring. Qed.
Lemma normal_turns s y N : surface_normal s y = Some N -> exists A B, forall Y dy, vlin Y y dy -> ovlin (fun h => surface_normal s (Y h)) N (turn y A B dy).
Proof.
  intros SN. pose proof (normal_domain _ _ _ SN) as W. rewrite (surface_normal_spec s y W) in SN. cbv zeta in SN.
  match type of SN with Some ?n = Some _ => assert (EN : N = n) by congruence end. clear SN.
  set (f := fun x => - s_c s / sqrt (1 - (1 + s_k s) * s_c s ^ 2 * x) - match s_asph s with None => 0 | Some l => even_slope 0 l x end) in *.
  assert (DF : exists b, derivable_pt_lim f (r2_of y) b).
  { assert (D1 : exists b, derivable_pt_lim (fun x => - s_c s / sqrt (1 - (1 + s_k s) * s_c s ^ 2 * x)) (r2_of y) b).
    { set (g := fun h => r2_of y + h).
      assert (LG : lin (fun h => 1 - (1 + s_k s) * s_c s ^ 2 * (r2_of y + h)) (1 - (1 + s_k s) * s_c s ^ 2 * r2_of y) (0 - ((0 * 1 + (1 + s_k s) * 0) * r2_of y + (1 + s_k s) * s_c s ^ 2 * 1))).
      { eapply lin_eq; [apply lin_minus; [apply lin_const|apply lin_mult; [apply lin_const|apply lin_plus; [apply lin_const|apply lin_id]]]|ring|ring]. }
      pose proof (sqrt_lt_R0 _ W) as SP.
      pose proof (lin_div _ _ _ _ _ _ (lin_const (- s_c s)) (lin_sqrt _ _ _ LG W) ltac:(lra)) as (_ & D). eexists.
      intros eps EP. destruct (D eps EP) as (del & H). exists del. intros h HN HL. specialize (H h HN HL). cbv beta in H. rewrite !Rplus_0_l, Rplus_0_r in H. exact H. }
    destruct D1 as (b1 & D1). destruct (s_asph s) as [l|].
    - destruct (deriv_slope l 0 (r2_of y)) as (b2 & D2). exists (b1 - b2). exact (derivable_pt_lim_minus _ _ _ _ _ D1 D2).
    - exists (b1 - 0). exact (derivable_pt_lim_minus _ _ _ _ _ D1 (derivable_pt_lim_const 0 _)). }
  destruct DF as (b & DF). exists (f (r2_of y)), (2 * b). intros Y dy LY. pose proof (vlin_at0 _ _ _ LY) as Y0. destruct LY as (X & Y1 & Z).
  assert (LR : lin (fun h => r2_of (Y h)) (r2_of y) (2 * (vx y * vx dy + vy y * vy dy))).
  { unfold r2_of. eapply lin_eq; [solve [lin_auto]|reflexivity|ring]. }
  assert (LF : lin (fun h => f (r2_of (Y h))) (f (r2_of y)) (b * (2 * (vx y * vx dy + vy y * vy dy)))).
  { split; [rewrite Y0; reflexivity|]. apply (derivable_pt_lim_comp (fun h => r2_of (Y h)) f); [apply LR|]. rewrite Y0. exact DF. }
  assert (NW : near (fun h => 0 < 1 - (1 + s_k s) * s_c s ^ 2 * r2_of (Y h))).
  { eapply (lin_pos _ (1 - (1 + s_k s) * s_c s ^ 2 * r2_of y)); [|exact W]. eapply lin_eq; [apply lin_minus; [apply lin_const|apply lin_mult; [apply lin_const|exact LR]]|reflexivity|reflexivity]. }
  exists (fun h => V (vx (Y h) * f (r2_of (Y h))) (vy (Y h) * f (r2_of (Y h))) 1). split.
  - rewrite EN. unfold turn. split; [|split]; cbn [vx vy vz].
    + eapply lin_eq; [apply lin_mult; [exact X|exact LF]|reflexivity|]. ring.
    + eapply lin_eq; [apply lin_mult; [exact Y1|exact LF]|reflexivity|]. ring.
    + apply lin_const.
  - eapply near_impl; [|exact NW]. intros h P. cbn beta in *. rewrite (surface_normal_spec s (Y h) P). reflexivity.
Qed.
Lemma normal_up s y N : surface_normal s y = Some N -> vz N = 1.
Proof. intros SN. rewrite (surface_normal_spec s y (normal_domain _ _ _ SN)) in SN. cbv zeta in SN. injection SN as <-. reflexivity. Qed.
Lemma along_up q N : vz N = 1 -> cross q N = v0 -> q = vmul3 (vz q) N.
Proof.
  intros Z C. apply vec_eq; cbn [vmul3 vx vy vz]; apply (f_equal vx) in C as X; apply (f_equal vy) in C as Y; unfold cross, v0 in X, Y; cbn [vx vy vz] in X, Y; rewrite Z in *; lra.
Qed.

(** two displacements of one ray *)
Definition bracket (dy du ey eu : vec) : R := dot dy eu - dot ey du.
Lemma bracket_vm r a b c d : rotation r -> bracket (vm a r) (vm b r) (vm c r) (vm d r) = bracket a b c d.
Proof. intros R. unfold bracket. rewrite !dot_vm; auto. Qed.

Section Step.
Variable newton : (R -> option R) -> (R -> option R) -> option R -> option R.
Notation trace := (geo_trace newton).

(** one family of rays from one element to the next *)
Lemma spread es Y U n l c i y dy v dv y' dy' v' dv' e e' : physical l es -> 0 < n -> near (fun h => dot (U h) (U h) = 1) ->
  let ray h := trace es (Y h) (U h) n l c in
  nth_error es i = Some e -> nth_error es (S i) = Some e' ->
  ovlin (fun h => position_at i (ray h)) y dy -> ovlin (fun h => direction_at i (ray h)) v dv ->
  ovlin (fun h => position_at (S i) (ray h)) y' dy' -> ovlin (fun h => direction_at (S i) (ray h)) v' dv' ->
  (forall m sf, e_kind e' = Sph (Some m) sf -> near (fun h => exists p, position_at (S i) (ray h) = Some p /\ surface_sag sf p = Some 0)) ->
  forall n1 n2 r r' o o', (forall h s, nth_error (ray h) i = Some s -> st_n s = n1) -> (forall h s, nth_error (ray h) (S i) = Some s -> st_n s = n2) ->
  rotation r -> rotation r' ->
  (forall y, from_normal (e_place e) y = Some (vm y r)) -> (forall y, from_normal (e_place e') y = Some (vm y r')) -> (forall y, to_normal (e_place e') y = Some (vm y (mT r'))) ->
  nth_error (origins es) i = Some o -> nth_error (origins es) (S i) = Some o' ->
  dot (vm v r) (vm dv r) = 0 /\ dot (vm v r) (vm v r) = 1 /\
  (exists t', vm dy' r' = vadd3 (vm dy r) (vadd3 (vmul3 t' (vm v r)) (vmul3 (dot (vsub3 (vadd3 o' (vm y' r')) (vadd3 o (vm y r))) (vm v r)) (vm dv r)))) /\
  let w := vm (vm v r) (mT r') in let dw := vm (vm dv r) (mT r') in
  ((v' = w /\ dv' = dw /\ n2 = n1 /\ (forall m sf, e_kind e' = Sph (Some m) sf -> m_mirror m = false)) \/
   (exists m sf N, e_kind e' = Sph (Some m) sf /\ (m_mirror m = true \/ n2 <> n1) /\ surface_normal sf y' = Some N /\ dot N dy' = 0 /\
     forall A B, (forall Y dy, vlin Y y' dy -> ovlin (fun h => surface_normal sf (Y h)) N (turn y' A B dy)) ->
       exists g, vmul3 n2 dv' = vadd3 (vmul3 n1 dw) (vadd3 (vmul3 g N) (vmul3 (n2 * vz v' - n1 * vz w) (turn y' A B dy'))))).
Proof.
  intros G N UN ray He He' (FY & LY & NY) (FV & LV & NV) (FY' & LY' & NY') (FV' & LV' & NV') ON n1 n2 r r' o o' N1 N2 RR RR' F F' T' Ho Ho'.
  unfold position_at, direction_at in *.
  set (P := fun h => vadd3 o (vm (FY h) r)). set (P' := fun h => vadd3 o' (vm (FY' h) r')). set (W := fun h => vm (FV h) r).
  assert (LP : vlin P (vadd3 o (vm y r)) (vm dy r)).
  { pose proof (vlin_add _ _ _ _ _ _ (vlin_const o) (vlin_vm _ _ _ r LY)) as Q. unfold P. replace (vm dy r) with (vadd3 v0 (vm dy r)) by vec_ring. exact Q. }
  assert (LP' : vlin P' (vadd3 o' (vm y' r')) (vm dy' r')).
  { pose proof (vlin_add _ _ _ _ _ _ (vlin_const o') (vlin_vm _ _ _ r' LY')) as Q. unfold P'. replace (vm dy' r') with (vadd3 v0 (vm dy' r')) by vec_ring. exact Q. }
  pose proof (vlin_vm _ _ _ r LV) as LW. fold W in LW.
  set (tau := fun h => dot (vsub3 (P' h) (P h)) (W h)).
  assert (LT : exists b, lin tau (dot (vsub3 (vadd3 o' (vm y' r')) (vadd3 o (vm y r))) (vm v r)) b).
  { eexists. unfold tau. apply vlin_dot; [apply vlin_sub; eauto|eauto]. }
  destruct LT as (t' & LT).
  assert (ST : near (fun h => exists s s', nth_error (ray h) i = Some s /\ nth_error (ray h) (S i) = Some s' /\ dot (W h) (W h) = 1 /\ vsub3 (P' h) (P h) = vmul3 (tau h) (W h) /\
      st_y s' = Some (FY' h) /\ st_u s' = Some (FV' h) /\ st_i s' = Some (vm (W h) (mT r')) /\ dot (U h) (U h) = 1)).
  { eapply near_impl; [|exact (near_and _ _ UN (near_and _ _ NY (near_and _ _ NV (near_and _ _ NY' NV'))))]. intros h (UH & YH & VH & YH' & VH'). cbn beta in *.
    destruct (nth_error (ray h) i) as [s|] eqn:S; cbn [obind] in YH, VH; [|discriminate]. destruct (nth_error (ray h) (Datatypes.S i)) as [s'|] eqn:S'; cbn [obind] in YH', VH'; [|discriminate].
    exists s, s'. split; [auto|]. split; [auto|].
    destruct (C16_straight_lines newton es (Y h) (U h) n l c i e e' s s' o o' G N UH He He' S S' Ho Ho' _ YH') as (p & w & P1 & P1' & U1 & t & A & B & C & D & E & UU & HT & LN).
    rewrite YH in A. injection A as <-. rewrite VH in B. injection B as <-. rewrite F in C, D. injection C as <-. injection D as <-. rewrite F' in E. injection E as <-.
    split; [exact UU|]. split.
    - unfold tau, P, P', W. rewrite LN. apply (f_equal (fun q => vmul3 q (vm (FV h) r))). transitivity (t * dot (vm (FV h) r) (vm (FV h) r)); [rewrite UU; ring|]. generalize (vm (FV h) r). intros q. vec_ring.
    - split; [exact YH'|]. split; [exact VH'|]. split; [|exact UH]. rewrite (link newton es (Y h) (U h) n l c i e e' s s' He He' S S'), VH. unfold onormal. cbn [obind]. rewrite F. cbn [obind]. apply T'. }
  assert (TURN : dot (vm v r) (vm dv r) = 0).
  { apply (unit_turn W); [exact LW|]. eapply near_impl; [|exact ST]. intros h (s & s' & _ & _ & UU & _). exact UU. }
  split; [exact TURN|]. split.
  { destruct (near_0 _ ST) as (s & s' & _ & _ & UU & _). unfold W in UU. rewrite (vlin_at0 _ _ _ LV) in UU. exact UU. }
  split.
  { exists t'. assert (E1 : vlin (fun h => vsub3 (P' h) (P h)) (vmul3 (tau 0) (W 0)) (vsub3 (vm dy' r') (vm dy r))).
    { pose proof (vlin_sub _ _ _ _ _ _ LP' LP) as Q. destruct (near_0 _ ST) as (s & s' & _ & _ & _ & LN & _). rewrite <- LN.
      rewrite (vlin_at0 _ _ _ LP), (vlin_at0 _ _ _ LP'). exact Q. }
    pose proof (vlin_scale _ _ _ _ _ _ LT LW) as E2.
    assert (E3 : near (fun h => vmul3 (tau h) (W h) = vsub3 (P' h) (P h))) by (eapply near_impl; [|exact ST]; intros h (s & s' & _ & _ & _ & LN & _); auto).
    pose proof (vlin_near _ _ _ _ E3 E2) as E4. destruct (vlin_unique _ _ _ _ _ E1 E4) as (_ & E5).
    transitivity (vadd3 (vm dy r) (vsub3 (vm dy' r') (vm dy r))); [generalize (vm dy' r') (vm dy r); intros; vec_ring|]. rewrite E5. reflexivity. }
  cbv zeta. set (w := vm (vm v r) (mT r')) in *. set (dw := vm (vm dv r) (mT r')) in *. pose proof (vlin_vm _ _ _ (mT r') LW) as LI. fold w dw in LI.
  assert (LAWS : near (fun h => exists s s', nth_error (ray h) i = Some s /\ nth_error (ray h) (S i) = Some s' /\
     match e_kind e' with
     | Plain | Sph None _ => FV' h = vm (W h) (mT r') /\ n2 = n1
     | Sph (Some m) sf => if m_mirror m then exists N, surface_normal sf (FY' h) = Some N /\ mirrored (vm (W h) (mT r')) (FV' h) N /\ n2 = n1
        else if Req_EM_T n2 n1 then FV' h = vm (W h) (mT r') else exists N, surface_normal sf (FY' h) = Some N /\ snell n1 n2 (vm (W h) (mT r')) (FV' h) N
     end)).
  { eapply near_impl; [|exact ST]. intros h (s & s' & S & S' & _ & _ & YY & UU & II & UH). exists s, s'. split; [exact S|]. split; [exact S'|].
    destruct (C16_surface_laws newton es (Y h) (U h) n l c i e e' s s' (FV' h) G N UH He He' S S' ltac:(rewrite YY; discriminate) UU) as (w1 & p1 & IW & YP & LAW).
    rewrite II in IW. injection IW as <-. rewrite YY in YP. injection YP as <-. rewrite (N1 h s S), (N2 h s' S') in LAW.
    destruct (e_kind e') as [|[m|] sf]; [exact LAW| |exact LAW]. destruct (m_mirror m); [exact LAW|]. apply LAW. }
  (* unchanged rays *)
  assert (SAME : near (fun h => vm (W h) (mT r') = FV' h) -> v' = w /\ dv' = dw).
  { intros E. destruct (vlin_unique _ _ _ _ _ LV' (vlin_near _ _ _ _ E LI)) as (A & B). split; [exact A|exact B]. }
  assert (BENT : forall m sf, e_kind e' = Sph (Some m) sf -> (m_mirror m = true \/ n2 <> n1) ->
     near (fun h => exists M, surface_normal sf (FY' h) = Some M /\ cross (vsub3 (vmul3 n2 (FV' h)) (vmul3 n1 (vm (W h) (mT r')))) M = v0) ->
     exists m sf N, e_kind e' = Sph (Some m) sf /\ (m_mirror m = true \/ n2 <> n1) /\ surface_normal sf y' = Some N /\ dot N dy' = 0 /\
     forall A B, (forall Y dy, vlin Y y' dy -> ovlin (fun h => surface_normal sf (Y h)) N (turn y' A B dy)) ->
       exists g, vmul3 n2 dv' = vadd3 (vmul3 n1 dw) (vadd3 (vmul3 g N) (vmul3 (n2 * vz v' - n1 * vz w) (turn y' A B dy')))).
  { intros m sf K MM NB. exists m, sf. destruct (near_0 _ NB) as (M & SM & _). rewrite (vlin_at0 _ _ _ LY') in SM. exists M. split; [exact K|]. split; [exact MM|]. split; [exact SM|].
    assert (TAN : dot M dy' = 0).
    { apply (tangent sf FY' y' dy' M LY' SM). eapply near_impl; [|exact (near_and _ _ NY' (ON m sf K))]. intros h (A & p & B & C). cbn beta in A, B. rewrite A in B. injection B as ->. exact C. }
    split; [exact TAN|]. intros A B HES. destruct (HES FY' dy' LY') as (FN & LN & NN).
    set (Q := fun h => vsub3 (vmul3 n2 (FV' h)) (vmul3 n1 (vm (W h) (mT r')))).
    assert (LQ : vlin Q (vsub3 (vmul3 n2 v') (vmul3 n1 w)) (vsub3 (vmul3 n2 dv') (vmul3 n1 dw))).
    { pose proof (vlin_sub _ _ _ _ _ _ (vlin_scale _ _ _ _ _ _ (lin_const n2) LV') (vlin_scale _ _ _ _ _ _ (lin_const n1) LI)) as E. unfold Q.
      replace (vsub3 (vmul3 n2 dv') (vmul3 n1 dw)) with (vsub3 (vadd3 (vmul3 0 v') (vmul3 n2 dv')) (vadd3 (vmul3 0 w) (vmul3 n1 dw))) by (generalize w dw; intros; vec_ring). exact E. }
    assert (LZ : lin (fun h => vz (Q h)) (n2 * vz v' - n1 * vz w) (vz (vsub3 (vmul3 n2 dv') (vmul3 n1 dw)))).
    { destruct LQ as (_ & _ & Z). exact Z. }
    exists (vz (vsub3 (vmul3 n2 dv') (vmul3 n1 dw))).
    assert (E : near (fun h => vmul3 (vz (Q h)) (FN h) = Q h)).
    { eapply near_impl; [|exact (near_and _ _ NB NN)]. intros h ((K1 & S1 & C1) & S2). cbn beta in S2. rewrite S1 in S2. assert (FN h = K1) by congruence. rewrite H.
      symmetry. apply along_up; [eapply normal_up; eauto|exact C1]. }
    destruct (vlin_unique _ _ _ _ _ LQ (vlin_near _ _ _ _ E (vlin_scale _ _ _ _ _ _ LZ LN))) as (_ & E5).
    transitivity (vadd3 (vmul3 n1 dw) (vsub3 (vmul3 n2 dv') (vmul3 n1 dw))); [generalize dw; intros; vec_ring|]. rewrite E5 at 1. reflexivity. }
  destruct (near_0 _ LAWS) as (s0 & s0' & _ & _ & L0).
  destruct (e_kind e') as [|[m|] sf] eqn:K.
  - left. destruct (SAME ltac:(eapply near_impl; [|exact LAWS]; intros h (s & s' & _ & _ & A & _); auto)) as (A & B). split; [exact A|]. split; [exact B|]. split; [apply L0|]. discriminate.
  - destruct (m_mirror m) eqn:MM.
    + right. apply (BENT m sf eq_refl); [auto|]. eapply near_impl; [|exact LAWS]. intros h (s & s' & _ & _ & M & SM & (_ & _ & CR & _) & E). exists M. split; [exact SM|]. rewrite E.
      replace (cross (vsub3 (vmul3 n1 (FV' h)) (vmul3 n1 (vm (W h) (mT r')))) M) with (vmul3 n1 (vsub3 (cross (FV' h) M) (cross (vm (W h) (mT r')) M))) by (generalize (vm (W h) (mT r')); intros; vec_ring).
      rewrite CR. generalize (cross (vm (W h) (mT r')) M). intros; vec_ring.
    + destruct (Req_EM_T n2 n1) as [E|E].
      * left. destruct (SAME ltac:(eapply near_impl; [|exact LAWS]; intros h (s & s' & _ & _ & A); auto)) as (A & B). split; [exact A|]. split; [exact B|]. split; [exact E|]. intros m' sf' E'. injection E' as <- <-. exact MM.
      * right. apply (BENT m sf eq_refl); [auto|]. eapply near_impl; [|exact LAWS]. intros h (s & s' & _ & _ & M & SM & (_ & CR & _)). exists M. split; [exact SM|].
        replace (cross (vsub3 (vmul3 n2 (FV' h)) (vmul3 n1 (vm (W h) (mT r')))) M) with (vsub3 (vmul3 n2 (cross (FV' h) M)) (vmul3 n1 (cross (vm (W h) (mT r')) M))) by (generalize (vm (W h) (mT r')); intros; vec_ring).
        rewrite CR. generalize (vmul3 n1 (cross (vm (W h) (mT r')) M)). intros; vec_ring.
  - left. destruct (SAME ltac:(eapply near_impl; [|exact LAWS]; intros h (s & s' & _ & _ & A & _); auto)) as (A & B). split; [exact A|]. split; [exact B|]. split; [apply L0|]. discriminate.
Qed.

(** the antisymmetric product times the index does not change from one element to the next *)
Lemma bracket_step es Y U Z W n l c i y dy ey v dv ev y' dy' ey' v' dv' ev' e e' : physical l es -> 0 < n ->
  near (fun h => dot (U h) (U h) = 1) -> near (fun h => dot (W h) (W h) = 1) ->
  let ray h := trace es (Y h) (U h) n l c in let yar h := trace es (Z h) (W h) n l c in
  nth_error es i = Some e -> nth_error es (S i) = Some e' ->
  ovlin (fun h => position_at i (ray h)) y dy -> ovlin (fun h => direction_at i (ray h)) v dv ->
  ovlin (fun h => position_at (S i) (ray h)) y' dy' -> ovlin (fun h => direction_at (S i) (ray h)) v' dv' ->
  ovlin (fun h => position_at i (yar h)) y ey -> ovlin (fun h => direction_at i (yar h)) v ev ->
  ovlin (fun h => position_at (S i) (yar h)) y' ey' -> ovlin (fun h => direction_at (S i) (yar h)) v' ev' ->
  (forall m sf, e_kind e' = Sph (Some m) sf -> near (fun h => exists p, position_at (S i) (ray h) = Some p /\ surface_sag sf p = Some 0)) ->
  (forall m sf, e_kind e' = Sph (Some m) sf -> near (fun h => exists p, position_at (S i) (yar h) = Some p /\ surface_sag sf p = Some 0)) ->
  forall n1 n2, (forall h s, nth_error (ray h) i = Some s -> st_n s = n1) -> (forall h s, nth_error (ray h) (S i) = Some s -> st_n s = n2) ->
  n2 * bracket dy' dv' ey' ev' = n1 * bracket dy dv ey ev.
Proof.
  intros G N UN WN ray yar He He' A1 A2 A3 A4 B1 B2 B3 B4 ON ON' n1 n2 N1 N2.
  assert (GE : good_element l e) by (unfold physical in G; rewrite Forall_forall in G; apply G; eapply nth_error_In; eauto).
  assert (GE' : good_element l e') by (unfold physical in G; rewrite Forall_forall in G; apply G; eapply nth_error_In; eauto).
  destruct (normal_maps _ (proj1 GE)) as (r & RR & F & T). destruct (normal_maps _ (proj1 GE')) as (r' & RR' & F' & T').
  destruct (origins_some _ _ _ He) as (o & Ho). destruct (origins_some _ _ _ He') as (o' & Ho').
  assert (IDX : forall i k, (forall h s, nth_error (ray h) i = Some s -> st_n s = k) -> (exists s, nth_error (ray 0) i = Some s) -> forall h s, nth_error (yar h) i = Some s -> st_n s = k).
  { intros j k H (s & S) h s' S'. rewrite <- (H 0 s S). symmetry. apply (trace_index newton es (Y 0) (U 0) (Z h) (W h) n l c j); auto. }
  assert (EX : forall j p dp, ovlin (fun h => position_at j (ray h)) p dp -> exists s, nth_error (ray 0) j = Some s).
  { intros j p dp (FY & _ & NY). pose proof (near_0 _ NY) as Q. cbn beta in Q. unfold position_at in Q. destruct (nth_error (ray 0) j) as [s|]; [eauto|discriminate]. }
  destruct (spread es Y U n l c i y dy v dv y' dy' v' dv' e e' G N UN He He' A1 A2 A3 A4 ON n1 n2 r r' o o' N1 N2 RR RR' F F' T' Ho Ho') as (P1 & UU & (t1 & D1) & L1).
  destruct (spread es Z W n l c i y ey v ev y' ey' v' ev' e e' G N WN He He' B1 B2 B3 B4 ON' n1 n2 r r' o o' (IDX i n1 N1 (EX _ _ _ A1)) (IDX (S i) n2 N2 (EX _ _ _ A3)) RR RR' F F' T' Ho Ho') as (P2 & _ & (t2 & D2) & L2).
  set (t := dot (vsub3 (vadd3 o' (vm y' r')) (vadd3 o (vm y r))) (vm v r)) in *. cbv zeta in L1, L2.
  set (dw := vm (vm dv r) (mT r')) in *. set (ew := vm (vm ev r) (mT r')) in *. set (w := vm (vm v r) (mT r')) in *.
  assert (FREE : bracket dy' dw ey' ew = bracket dy dv ey ev).
  { assert (Q : forall a, vm (vm a r') (mT r') = a) by (intros a; apply vm_back; auto).
    rewrite <- (Q dy'), <- (Q ey'). unfold dw, ew. rewrite bracket_vm by (apply rotation_mT; auto). rewrite <- (bracket_vm r dy dv ey ev RR).
    rewrite D1, D2. revert P1 P2. generalize (vm dy r) (vm ey r) (vm dv r) (vm ev r) (vm v r) t. intros a b p q u t0 P1 P2. unfold bracket.
    transitivity (dot a q - dot b p + t1 * dot u q - t2 * dot u p); [unfold dot, vadd3, vmul3; cbn [vx vy vz]; ring|]. rewrite P1, P2. ring. }
  rewrite <- FREE. destruct L1 as [(_ & -> & -> & NM)|(m & sf & M & K & MM & SM & T1 & L1)]; destruct L2 as [(_ & -> & EN & NM')|(m' & sf' & M' & K' & MM' & SM' & T2 & L2)].
  - reflexivity.
  - exfalso. destruct MM' as [E|E]; [rewrite (NM _ _ K') in E; discriminate|contradiction].
  - exfalso. destruct MM as [E|E]; [rewrite (NM' _ _ K) in E; discriminate|contradiction].
  - rewrite K in K'. injection K' as <- <-. rewrite SM in SM'. injection SM' as <-. destruct (normal_turns sf y' M SM) as (A & B & H).
    destruct (L1 A B H) as (g1 & E1). destruct (L2 A B H) as (g2 & E2).
    assert (K1 : forall k a b, k * dot a b = dot a (vmul3 k b)) by (intros; vec_ring).
    unfold bracket. rewrite !Rmult_minus_distr_l, !K1, E1, E2.
    assert (X : forall a p q s1 s2, dot a (vadd3 p (vadd3 (vmul3 s1 q) (vmul3 s2 (turn y' A B a)))) = dot a p + s1 * dot q a + s2 * dot (turn y' A B a) a) by (intros; generalize (turn y' A B a); intros; vec_ring).
    assert (X2 : forall a p q s1 s2 b, dot a (vadd3 p (vadd3 (vmul3 s1 q) (vmul3 s2 b))) = dot a p + s1 * dot q a + s2 * dot b a) by (intros; vec_ring).
    rewrite !X2, T1, T2, (turn_sym y' A B ey' dy'). ring.
Qed.
End Step.
