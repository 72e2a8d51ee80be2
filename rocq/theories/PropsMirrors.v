(** Property C98: third order aberrations of systems of mirrors.  What the listed coefficients of any number of conic mirrors
    on one axis add up to; mirrors that each image without spherical aberration; the aplanatic telescope of two mirrors; the
    afocal telescope of two paraboloids; the sphere with the stop in its centre. *)
From Coq Require Import Reals List Lra Lia Psatz.
From Verif Require Import Base Vec RotModel RotProofs PlacementModel PlacementProofs ElementModel PropsRescale
  ParaxialModel ParaxialProofs LimitProofs PropsLimit PupilModel ParaxTraceModel PropsConjugates SeidelModel PropsSeidel PropsStopShift PropsDesign PropsThinLens.
Import ListNotations.
Open Scope R_scope.

(** ** Specification *)
(** a mirror: distance from the surface before it along the light, curvature (seen by the light that arrives) and conic
    constant *)
Record mirror := Mirror { mi_d : R; mi_c : R; mi_k : R }.
(** heights and slopes of a ray behind the mirrors, along the light *)
Fixpoint rays (ms : list mirror) (y u : R) : list (R * R) :=
  match ms with [] => [] | m :: ms => let h := y + mi_d m * u in let u' := u + 2 * mi_c m * h in (h, u') :: rays ms h u' end.
Definition end_slope (ms : list mirror) (y u : R) : R := snd (last (rays ms y u) (y, u)).
(** aberrations of one mirror with the stop at it; [h] height, [u] and [u'] slopes of the marginal ray *)
Definition reflection (H c k h u u' : R) : coefs :=
  Coefs (- (c * h ^ 2 / H) * (((u + u') / 2) ^ 2 + k * c ^ 2 * h ^ 2)) ((u' ^ 2 - u ^ 2) / 4) (- (c * H)) (c * H) 0 0 0.
(** all mirrors, each with the common stop *)
Fixpoint total (H : R) (ms : list mirror) (y u yc uc : R) : coefs :=
  match ms with
  | [] => no_coefs
  | m :: ms =>
      let h := y + mi_d m * u in let hc := yc + mi_d m * uc in let u' := u + 2 * mi_c m * h in let uc' := uc + 2 * mi_c m * hc in
      plus (stop_shifted (hc / h) (reflection H (mi_c m) (mi_k m) h u u')) (total H ms h u' hc uc')
  end.
(** a mirror element in vacuum, and a system of mirrors: object, mirrors, image *)
Definition is_mirror (m : mirror) (e : element) : Prop :=
  p_angles (e_place e) = v0 /\ p_distance (e_place e) = mi_d m /\
  exists g b, e_kind e = Sph (Some g) (Surf (mi_c m) (mi_k m) None b) /\ m_mirror g = true /\ forall w, m_index g w = 1.
Definition is_image (e : element) : Prop :=
  p_angles (e_place e) = v0 /\ match e_kind e with Sph (Some _) _ => False | Sph None s => s_asph s = None | Plain => True end.
Definition is_mirrors (ms : list mirror) (es : list element) : Prop :=
  exists e0 mes img, es = e0 :: mes ++ [img] /\ Forall2 is_mirror ms mes /\ is_image img.

(** ** One mirror *)
Lemma one_mirror c k ym yc um uc : let um' := um + 2 * c * ym in let uc' := uc + 2 * c * yc in let H := um * yc - uc * ym in
  ym <> 0 -> H <> 0 ->
  sev (k * c ^ 3 / 8) c (-1) 1 0 0 ym yc um uc um' uc' = stop_shifted (yc / ym) (reflection H c k ym um um').
Proof.
  intros um' uc' H Y HZ. assert (L : um' * yc - uc' * ym = H) by (unfold um', uc', H; ring).
  assert (UC : uc = (um * yc - H) / ym) by (unfold H; field; exact Y).
  apply coefs_eq; unfold sev, stop_shifted, reflection; cbn [tsc cc tac tpc dc tachc tchc]; rewrite ?L; unfold um', uc'; clearbody H; rewrite ?UC; field; repeat split; auto; lra.
Qed.
Lemma mirror_matrix m e l : is_mirror m e -> exists M, paraxial_matrix e 1 l = (1, Some M).
Proof.
  intros (A & D & g & b & K & G & I). unfold paraxial_matrix. rewrite K, A. cbn [vx vz v0]. unfold transfer_matrix. rewrite fdiv_some by lra. cbn [obind].
  unfold vertex_curvature. cbn [s_asph s_c obind]. unfold refraction_matrix. rewrite G, cos_0. rewrite fdiv_some by lra. cbn [obind]. unfold index_after. rewrite K, I. eexists. reflexivity.
Qed.
Lemma mirror_step m e l : is_mirror m e -> exists M, paraxial_matrix e 1 l = (1, Some M) /\
  forall axis v, row_y axis (mv4 M v) = row_y axis v + mi_d m * row_u axis v /\
    row_u axis (mv4 M v) = row_u axis v + 2 * mi_c m * (row_y axis v + mi_d m * row_u axis v).
Proof.
  intros IM. destruct (mirror_matrix m e l IM) as (M & P). exists M. split; [exact P|]. destruct IM as (A & D & g & b & K & G & I).
  destruct (element_rows e 1 l 1 M ltac:(lra) A ltac:(rewrite K, G; split; [reflexivity|apply I]) P) as (_ & _ & W). rewrite K, D in W.
  intros axis v. destruct (W axis v) as (Y & c & E & U). cbn in E. injection E as <-. unfold signed in U. rewrite G in U.
  rewrite Y in U. split; [rewrite Y; field|rewrite U; field].
Qed.
Lemma image_step e l : is_image e -> exists M, paraxial_matrix e 1 l = (1, Some M) /\
  forall axis v, row_y axis (mv4 M v) = row_y axis v + p_distance (e_place e) * row_u axis v /\ (e_kind e <> Plain -> row_u axis (mv4 M v) = row_u axis v).
Proof.
  intros (A & K).
  assert (L : lens_surface l e).
  { split; [exact A|]. intros mt s E. rewrite E in K. destruct mt; [contradiction|]. split; [rewrite K; discriminate|discriminate]. }
  destruct (lens_block true l e 1 L ltac:(lra)) as (M & P & _). assert (I : index_after e 1 l = 1) by (unfold index_after; destruct (e_kind e) as [|[|]]; tauto).
  rewrite I in P. exists M. split; [exact P|].
  assert (IK : match e_kind e with Sph (Some m) _ => if m_mirror m then 1 = 1 /\ m_index m l = 1 else 0 < m_index m l | _ => True end) by (destruct (e_kind e) as [|[|]]; tauto).
  destruct (element_rows e 1 l 1 M ltac:(lra) A IK P) as (_ & _ & W). intros axis v. destruct (W axis v) as (Y & U). split; [rewrite Y; field|].
  intros NP. destruct (e_kind e) as [|[m|] s]; [congruence|contradiction|]. destruct U as (c & _ & ->). unfold signed. ring.
Qed.

(** ** Any number of mirrors *)
Lemma plus_sums x xs : sums (x :: xs) = plus x (sums xs). Proof. reflexivity. Qed.
Lemma mirrors_from axis l l1 l2 img : is_image img -> forall ms mes, Forall2 is_mirror ms mes -> forall vm vc r0,
  let ym := row_y axis vm in let um := row_u axis vm in let yc := row_y axis vc in let uc := row_u axis vc in let H := um * yc - uc * ym in
  H <> 0 -> ru r0 = (um, uc) -> rn r0 = 1 ->
  exists rs xs, ptrace_from axis l (mes ++ [img]) vm vc 1 = Some rs /\ aberrations_from l1 l2 (mes ++ [img]) r0 rs 0 = Some xs /\
    (forall i h u', nth_error (rays ms ym um) i = Some (h, u') -> exists r, nth_error rs i = Some r /\ rn r = 1 /\ fst (ry r) = h /\ fst (ru r) = u') /\
    (forall i h u', nth_error (rays ms yc uc) i = Some (h, u') -> exists r, nth_error rs i = Some r /\ snd (ry r) = h /\ snd (ru r) = u') /\
    (Forall (fun hu => fst hu <> 0) (rays ms ym um) -> sums xs = total H ms ym um yc uc).
Proof.
  intros IMG. induction 1 as [|m e ms mes IM F IH]; intros vm vc r0 ym um yc uc H HZ R0 RN; cbn [app ptrace_from].
  - destruct (image_step img l IMG) as (M & P & W). unfold propagate_paraxial. rewrite P. cbn [obind].
    set (r := PRow (row_y axis (mv4 M vm), row_y axis (mv4 M vc)) (row_u axis (mv4 M vm), row_u axis (mv4 M vc)) 1). exists [r], [no_coefs].
    split; [reflexivity|]. split.
    { cbn [aberrations_from]. enough (E : element_aberration img (ry r) (ru r0) (ru r) (rn r0) (rn r) 0 (element_dispersion img l1 l2) = Some no_coefs) by (rewrite E; reflexivity).
      destruct IMG as (_ & K). unfold element_aberration, element_dispersion. destruct (e_kind img) as [|[g|] s] eqn:EK; [reflexivity|contradiction|].
      destruct (W axis vm) as (YM & UM). destruct (W axis vc) as (YC & UC). specialize (UM ltac:(discriminate)). specialize (UC ltac:(discriminate)).
      rewrite R0, RN. cbn [r ry ru rn]. rewrite UM, UC. apply aberration_sev. unfold departure. rewrite K. exists (s_k s * s_c s ^ 3 / 8), (s_c s).
      unfold signed. split; [reflexivity|]. split; [lra|]. split; [lra|]. rewrite YM, YC. fold um uc ym yc.
      split; [unfold H in HZ; intros Z; apply HZ; lra|].
      assert (L : um * (yc + p_distance (e_place img) * uc) - uc * (ym + p_distance (e_place img) * um) = H) by (unfold H; ring).
      apply coefs_eq; unfold sev, no_coefs; cbn [tsc cc tac tpc dc tachc tchc]; rewrite ?L; field; auto. }
    split; [intros [|i] h u' E; discriminate|]. split; [intros [|i] h u' E; discriminate|]. intros _. unfold sums, column, total. cbn. apply coefs_eq; cbn; ring.
  - destruct (mirror_step m e l IM) as (M & P & W). unfold propagate_paraxial. rewrite P. cbn [obind].
    destruct (W axis vm) as (YM & UM). destruct (W axis vc) as (YC & UC). fold ym um in YM, UM. fold yc uc in YC, UC.
    set (r := PRow (row_y axis (mv4 M vm), row_y axis (mv4 M vc)) (row_u axis (mv4 M vm), row_u axis (mv4 M vc)) 1).
    assert (HE : row_u axis (mv4 M vm) * row_y axis (mv4 M vc) - row_u axis (mv4 M vc) * row_y axis (mv4 M vm) = H) by (rewrite YM, UM, YC, UC; unfold H; ring).
    destruct (IH (mv4 M vm) (mv4 M vc) r) as (rs & xs & PT & AB & N1 & N2 & TT); [rewrite HE; exact HZ|reflexivity|reflexivity|]. rewrite PT. cbn [obind].
    destruct IM as (A & D & g & b & K & G & I).
    assert (DI : element_dispersion e l1 l2 = 0) by (unfold element_dispersion; rewrite K, !I; ring).
    set (x := sev (mi_k m * mi_c m ^ 3 / 8) (mi_c m) (-1) 1 0 0 (row_y axis (mv4 M vm)) (row_y axis (mv4 M vc)) um uc (row_u axis (mv4 M vm)) (row_u axis (mv4 M vc))).
    assert (EA : element_aberration e (ry r) (ru r0) (ru r) (rn r0) (rn r) 0 (element_dispersion e l1 l2) = Some x).
    { unfold element_aberration. rewrite K, DI, R0, RN. cbn [r ry ru rn]. apply aberration_sev. unfold departure. cbn [s_asph s_c s_k]. eexists _, _.
      unfold signed. rewrite G. split; [reflexivity|]. split; [lra|]. split; [lra|]. split; [rewrite HE; exact HZ|]. reflexivity. }
    exists (r :: rs), (x :: xs). split; [reflexivity|]. split.
    { cbn [aberrations_from]. rewrite EA. cbn [obind]. rewrite DI, AB. reflexivity. }
    rewrite YM, UM in N1. rewrite YC, UC in N2. split.
    { intros [|i] h u'; cbn [rays nth_error]; [|apply N1]. intros E; injection E as <- <-. exists r. cbn [r ry ru rn fst]. repeat split; auto. }
    split.
    { intros [|i] h u'; cbn [rays nth_error]; [|apply N2]. intros E; injection E as <- <-. exists r. cbn [r ry ru rn snd]. repeat split; auto. }
    cbn [rays]. intros FA. inversion FA as [|? ? HN FA']; subst. cbn [fst] in HN. rewrite plus_sums. cbn [total].
    rewrite HE, YM, UM, YC, UC in TT. rewrite (TT FA'). f_equal. unfold x. rewrite YM, UM, YC, UC.
    pose proof (one_mirror (mi_c m) (mi_k m) (ym + mi_d m * um) (yc + mi_d m * uc) um uc) as OM. cbv zeta in OM.
    replace (um * (yc + mi_d m * uc) - uc * (ym + mi_d m * um)) with H in OM by (unfold H; ring). apply OM; assumption.
Qed.
(** the trace of any system of mirrors and its coefficients; every mirror contributes as if the stop were at it, moved to the
    common stop *)
Theorem C98_mirrors ms es axis l l1 l2 y u : is_mirrors ms es -> let H := fst u * snd y - snd u * fst y in H <> 0 ->
  exists rs xs, ptrace axis l es y u 1 = Some rs /\ aberrations l1 l2 es rs = Some xs /\
    (forall i h u', nth_error (rays ms (fst y) (fst u)) i = Some (h, u') -> exists r, nth_error rs (S i) = Some r /\ rn r = 1 /\ fst (ry r) = h /\ fst (ru r) = u') /\
    (forall i h u', nth_error (rays ms (snd y) (snd u)) i = Some (h, u') -> exists r, nth_error rs (S i) = Some r /\ snd (ry r) = h /\ snd (ru r) = u') /\
    (Forall (fun hu => fst hu <> 0) (rays ms (fst y) (fst u)) -> sums xs = total H ms (fst y) (fst u) (snd y) (snd u)).
Proof.
  intros (e0 & mes & img & -> & F & IMG) H HZ. set (vm := V4 (fst y) (fst y) (fst u) (fst u)). set (vc := V4 (snd y) (snd y) (snd u) (snd u)).
  assert (E1 : row_y axis vm = fst y) by (unfold row_y, vm; destruct axis; reflexivity). assert (E2 : row_u axis vm = fst u) by (unfold row_u, vm; destruct axis; reflexivity).
  assert (E3 : row_y axis vc = snd y) by (unfold row_y, vc; destruct axis; reflexivity). assert (E4 : row_u axis vc = snd u) by (unfold row_u, vc; destruct axis; reflexivity).
  pose proof (mirrors_from axis l l1 l2 img IMG ms mes F vm vc (PRow y u 1)) as K. cbv zeta in K. rewrite E1, E2, E3, E4 in K.
  destruct K as (rs & xs & P & A & N1 & N2 & T); [exact HZ|apply surjective_pairing|reflexivity|].
  exists (PRow y u 1 :: rs), (no_coefs :: xs). cbn [ptrace aberrations]. fold vm vc. rewrite P. cbn [obind]. split; [reflexivity|]. rewrite A. split; [reflexivity|].
  split; [exact N1|]. split; [exact N2|]. intros FA. rewrite plus_sums, (T FA). fold H. apply coefs_eq; unfold plus, no_coefs; cbn [tsc cc tac tpc dc tachc tchc]; ring.
Qed.

(** the same for a trace that is given *)
Lemma given ms es axis l l1 l2 y u rs xs : is_mirrors ms es -> fst u * snd y - snd u * fst y <> 0 -> Forall (fun hu => fst hu <> 0) (rays ms (fst y) (fst u)) ->
  ptrace axis l es y u 1 = Some rs -> aberrations l1 l2 es rs = Some xs -> sums xs = total (fst u * snd y - snd u * fst y) ms (fst y) (fst u) (snd y) (snd u).
Proof.
  intros M H F P A. destruct (C98_mirrors ms es axis l l1 l2 y u M H) as (rs' & xs' & P' & A' & _ & _ & T). rewrite P in P'. injection P' as <-. rewrite A in A'. injection A' as <-. auto.
Qed.

(** ** Sums over many mirrors *)
(** each mirror images the axis point before it without spherical aberration: plane, or a conic with the two points as foci *)
Fixpoint corrected (ms : list mirror) (y u : R) : Prop :=
  match ms with
  | [] => True
  | m :: ms => let h := y + mi_d m * u in let u' := u + 2 * mi_c m * h in
      (mi_c m = 0 \/ mi_k m = - ((u + u') / (u - u')) ^ 2) /\ corrected ms h u'
  end.
Lemma end_slope_cons m ms y u : end_slope (m :: ms) y u = end_slope ms (y + mi_d m * u) (u + 2 * mi_c m * (y + mi_d m * u)).
Proof.
  unfold end_slope. cbn [rays]. set (h := y + mi_d m * u). set (u' := u + 2 * mi_c m * h). destruct (rays ms h u') as [|p l] eqn:E; [reflexivity|].
  cbn [last]. f_equal. clear E. revert p. induction l as [|q l IH]; intros p; [reflexivity|]. apply (IH q).
Qed.
Definition curvatures (ms : list mirror) : R := fold_right (fun m s => mi_c m + s) 0 ms.
Lemma total_fixed H ms : forall y u yc uc, tpc (total H ms y u yc uc) = H * curvatures ms /\ tachc (total H ms y u yc uc) = 0 /\ tchc (total H ms y u yc uc) = 0.
Proof.
  induction ms as [|m ms IH]; intros y u yc uc; cbn [total curvatures fold_right]; [cbn; repeat split; ring|].
  set (h := y + mi_d m * u). set (hc := yc + mi_d m * uc). destruct (IH h (u + 2 * mi_c m * h) hc (uc + 2 * mi_c m * hc)) as (I1 & I2 & I3). fold (curvatures ms).
  unfold plus, stop_shifted, reflection. cbn [tpc tachc tchc]. rewrite I1, I2, I3. repeat split; ring.
Qed.
Lemma corrected_zero H c k h u : h <> 0 -> c = 0 \/ k = - ((u + (u + 2 * c * h)) / (u - (u + 2 * c * h))) ^ 2 -> tsc (reflection H c k h u (u + 2 * c * h)) = 0.
Proof.
  intros HN [-> | ->]; unfold reflection; cbn [tsc]; [unfold Rdiv; ring|].
  destruct (Req_EM_T c 0) as [-> | CN]; [unfold Rdiv; ring|].
  replace (u - (u + 2 * c * h)) with (-2 * (c * h)) by ring. replace (((u + (u + 2 * c * h)) / 2) ^ 2 + - ((u + (u + 2 * c * h)) / (-2 * (c * h))) ^ 2 * c ^ 2 * h ^ 2) with 0; [ring|].
  field. split; assumption.
Qed.
Lemma total_corrected H ms : forall y u yc uc, corrected ms y u -> Forall (fun hu => fst hu <> 0) (rays ms y u) ->
  tsc (total H ms y u yc uc) = 0 /\ cc (total H ms y u yc uc) = (end_slope ms y u ^ 2 - u ^ 2) / 4.
Proof.
  induction ms as [|m ms IH]; intros y u yc uc; cbn [total corrected rays]; [intros _ _; unfold end_slope; cbn; split; field|].
  intros (C & CO) F. inversion F as [|? ? HN F']; subst. cbn [fst] in HN. rewrite end_slope_cons.
  set (h := y + mi_d m * u) in *. set (hc := yc + mi_d m * uc). set (u' := u + 2 * mi_c m * h) in *.
  destruct (IH h u' hc (uc + 2 * mi_c m * hc) CO F') as (I1 & I2). pose proof (corrected_zero H (mi_c m) (mi_k m) h u HN C) as Z. fold u' in Z.
  unfold plus, stop_shifted. cbn [tsc cc]. rewrite I1, I2, Z. split; [ring|]. unfold reflection. cbn [cc]. field.
  exact HN.
Qed.
(** Petzval sum and colour of any mirrors; mirrors that each image stigmatically have no spherical aberration, and their
    coma is that of the slopes at the two ends alone: however many mirrors, wherever they and the stop are *)
Theorem C98_stigmatic ms es axis l l1 l2 y u rs xs : is_mirrors ms es -> let H := fst u * snd y - snd u * fst y in H <> 0 ->
  Forall (fun hu => fst hu <> 0) (rays ms (fst y) (fst u)) -> ptrace axis l es y u 1 = Some rs -> aberrations l1 l2 es rs = Some xs ->
  column tpc xs = H * curvatures ms /\ column tachc xs = 0 /\ column tchc xs = 0 /\
  (corrected ms (fst y) (fst u) -> column tsc xs = 0 /\ column cc xs = (end_slope ms (fst y) (fst u) ^ 2 - fst u ^ 2) / 4).
Proof.
  intros M H HZ F P A. pose proof (given _ _ _ _ _ _ _ _ _ _ M HZ F P A) as T. fold H in T.
  destruct (total_fixed H ms (fst y) (fst u) (snd y) (snd u)) as (T1 & T2 & T3). rewrite <- T in T1, T2, T3. split; [exact T1|]. split; [exact T2|]. split; [exact T3|].
  intros C. destruct (total_corrected H ms (fst y) (fst u) (snd y) (snd u) C F) as (T4 & T5). rewrite <- T in T4, T5. split; [exact T4|exact T5].
Qed.

(** ** Two mirrors, distant object *)
(** the telescope in the terms of the astronomers: power, magnification of the secondary, ratio of the ray heights *)
Definition tel_power (c1 c2 d : R) : R := - (2 * c1 + 2 * c2 * (1 + 2 * c1 * d)).
Definition tel_m (c1 c2 d : R) : R := - (2 * c1) / tel_power c1 c2 d.
Definition tel_s (c1 d : R) : R := 1 + 2 * c1 * d.
(** the classical telescope and the aplanatic one *)
Definition classical_k2 (m : R) : R := - ((m + 1) / (m - 1)) ^ 2.
Definition aplanatic_k1 (m s : R) : R := -1 - 2 * s / (m ^ 2 * (1 - s)).
Definition aplanatic_k2 (m s : R) : R := - ((m + 1) / (m - 1)) ^ 2 - 2 * m / ((1 - s) * (m - 1) ^ 3).

Lemma two_mirrors d0 c1 k1 d c2 k2 y H yc uc : y <> 0 -> H <> 0 -> tel_s c1 d <> 0 -> 0 * yc - uc * y = H ->
  let f := tel_power c1 c2 d in let q := (yc + d0 * uc) / y in let q' := q - d * H / (y ^ 2 * tel_s c1 d) in
  let a1 := - (1 + k1) * c1 ^ 3 * y ^ 4 / H in let a2 := - (c2 * (y * tel_s c1 d) ^ 2 / H) * (y ^ 2 * (2 * c1 - f) ^ 2 / 4 + k2 * c2 ^ 2 * (y * tel_s c1 d) ^ 2) in
  let x := total H [Mirror d0 c1 k1; Mirror d c2 k2] y 0 yc uc in
  tsc x = a1 + a2 /\ cc x = y ^ 2 * f ^ 2 / 4 + q * a1 + q' * a2 /\
  tac x = - ((c1 + c2) * H) + q * (2 * y ^ 2 * c1 ^ 2) + q' * (y ^ 2 * (f ^ 2 - 4 * c1 ^ 2) / 2) + q ^ 2 * a1 + q' ^ 2 * a2.
Proof.
  intros Y HZ S HE f q q' a1 a2 x. assert (UC : uc = - H / y) by (rewrite <- HE; field; exact Y).
  unfold x, q', a1, a2, q, f. cbn [total mi_d mi_c mi_k]. unfold plus, stop_shifted, reflection, no_coefs, tel_power. unfold tel_s in *. cbn [tsc cc tac]. rewrite UC.
  replace (y + d0 * 0) with y by ring. replace (y + d * (0 + 2 * c1 * y)) with (y * (1 + 2 * c1 * d)) by ring. clear x a1 a2 q q' f UC HE.
  split; [field; auto|]. split; field; auto.
Qed.
Definition tel (d0 c1 k1 d c2 k2 : R) : list mirror := [Mirror d0 c1 k1; Mirror d c2 k2].
Lemma tel_heights d0 c1 k1 d c2 k2 y : y <> 0 -> tel_s c1 d <> 0 -> Forall (fun hu => fst hu <> 0) (rays (tel d0 c1 k1 d c2 k2) y 0).
Proof.
  intros Y S. cbn [tel rays mi_d mi_c]. repeat constructor; cbn [fst]; [rewrite Rmult_0_r, Rplus_0_r; exact Y|].
  replace (y + d0 * 0 + d * (0 + 2 * c1 * (y + d0 * 0))) with (y * tel_s c1 d) by (unfold tel_s; ring). apply Rmult_integral_contrapositive_currified; assumption.
Qed.
Lemma aplanat_algebra c1 k1 d c2 k2 y H q : y <> 0 -> H <> 0 -> c1 <> 0 -> c2 <> 0 -> d <> 0 -> tel_s c1 d <> 0 -> tel_power c1 c2 d <> 0 ->
  let f := tel_power c1 c2 d in let s := tel_s c1 d in let m := tel_m c1 c2 d in let q' := q - d * H / (y ^ 2 * s) in
  let a1 := - (1 + k1) * c1 ^ 3 * y ^ 4 / H in let a2 := - (c2 * (y * s) ^ 2 / H) * (y ^ 2 * (2 * c1 - f) ^ 2 / 4 + k2 * c2 ^ 2 * (y * s) ^ 2) in
  a1 + a2 = 0 /\ y ^ 2 * f ^ 2 / 4 + q * a1 + q' * a2 = 0 <-> k1 = aplanatic_k1 m s /\ k2 = aplanatic_k2 m s.
Proof.
  intros Y HZ C1 C2 D S F f s m q' a1 a2.
  assert (EM : m = - (2 * c1) / f) by reflexivity. assert (C1E : c1 = - (m * f) / 2) by (rewrite EM; field; exact F).
  assert (MN : m <> 0) by (intros Z; apply C1; rewrite C1E, Z; field).
  assert (SE : s - 1 = - (m * f) * d) by (unfold s, tel_s; rewrite C1E; field). assert (SN : 1 - s <> 0) by (intros Z; assert (Q : m * f * d = 0) by lra; apply Rmult_integral in Q as [Q|Q]; [apply Rmult_integral in Q as [Q|Q]|]; auto).
  assert (DE : d = (1 - s) / (m * f)) by (apply (Rmult_eq_reg_l (m * f)); [rewrite <- (Ropp_involutive (m * f)) at 1; rewrite Ropp_mult_distr_l_reverse, <- SE; field; auto|apply Rmult_integral_contrapositive_currified; auto]).
  assert (C2E : c2 = f * (m - 1) / (2 * s)).
  { apply (Rmult_eq_reg_r (2 * s)); [|apply Rmult_integral_contrapositive_currified; [lra|exact S]]. replace (f * (m - 1) / (2 * s) * (2 * s)) with (m * f - f) by (field; exact S).
    replace (m * f) with (- (2 * c1)) by (rewrite C1E; field). unfold f, tel_power, s, tel_s. ring. }
  assert (M1 : m - 1 <> 0) by (intros Z; apply C2; rewrite C2E, Z; field; exact S).
  assert (A1 : a1 = (1 + k1) * (m * f) ^ 3 * y ^ 4 / (8 * H)) by (unfold a1; rewrite C1E; field; exact HZ).
  assert (A2 : a2 = - ((f * (m - 1)) ^ 3 * s * y ^ 4 / (8 * H)) * (((m + 1) / (m - 1)) ^ 2 + k2)).
  { unfold a2. rewrite C2E. replace (2 * c1 - f) with (- (f * (m + 1))) by (rewrite C1E; field). field. auto. }
  assert (Q1 : y ^ 2 * f ^ 2 / 4 + q * a1 + q' * a2 = y ^ 2 * f ^ 2 / 4 + q * (a1 + a2) - (1 - s) * H / (m * f * y ^ 2 * s) * a2).
  { unfold q'. rewrite DE. field. auto. }
  rewrite Q1. clear Q1. clearbody a1 a2. clear q' EM C1E SE DE C2E. fold f in F. fold s in S. clearbody m f s.
  assert (K2 : a2 = m * f ^ 3 * y ^ 4 * s / (4 * H * (1 - s)) <-> k2 = aplanatic_k2 m s).
  { rewrite A2. unfold aplanatic_k2. split; intros E.
    - apply (Rmult_eq_compat_r (- (8 * H) / ((f * (m - 1)) ^ 3 * s * y ^ 4))) in E.
      replace (- ((f * (m - 1)) ^ 3 * s * y ^ 4 / (8 * H)) * (((m + 1) / (m - 1)) ^ 2 + k2) * (- (8 * H) / ((f * (m - 1)) ^ 3 * s * y ^ 4))) with (((m + 1) / (m - 1)) ^ 2 + k2) in E by (field; repeat split; auto).
      replace (m * f ^ 3 * y ^ 4 * s / (4 * H * (1 - s)) * (- (8 * H) / ((f * (m - 1)) ^ 3 * s * y ^ 4))) with (- (2 * m / ((1 - s) * (m - 1) ^ 3))) in E by (field; repeat split; auto). lra.
    - rewrite E. field. repeat split; auto. }
  assert (K1 : a1 = - (m * f ^ 3 * y ^ 4 * s / (4 * H * (1 - s))) <-> k1 = aplanatic_k1 m s).
  { rewrite A1. unfold aplanatic_k1. split; intros E.
    - apply (Rmult_eq_compat_r (8 * H / ((m * f) ^ 3 * y ^ 4))) in E.
      replace ((1 + k1) * (m * f) ^ 3 * y ^ 4 / (8 * H) * (8 * H / ((m * f) ^ 3 * y ^ 4))) with (1 + k1) in E by (field; repeat split; auto).
      replace (- (m * f ^ 3 * y ^ 4 * s / (4 * H * (1 - s))) * (8 * H / ((m * f) ^ 3 * y ^ 4))) with (- (2 * s / (m ^ 2 * (1 - s)))) in E by (field; repeat split; auto). lra.
    - rewrite E. field. repeat split; auto. }
  rewrite <- K1, <- K2. split.
  - intros (E1 & E2). rewrite E1, Rmult_0_r, Rplus_0_r in E2.
    assert (E : a2 = m * f ^ 3 * y ^ 4 * s / (4 * H * (1 - s))).
    { apply (Rmult_eq_reg_l ((1 - s) * H / (m * f * y ^ 2 * s))).
      - replace ((1 - s) * H / (m * f * y ^ 2 * s) * (m * f ^ 3 * y ^ 4 * s / (4 * H * (1 - s)))) with (y ^ 2 * f ^ 2 / 4) by (field; repeat split; auto). clear - E2; lra.
      - unfold Rdiv. repeat apply Rmult_integral_contrapositive_currified; auto. apply Rinv_neq_0_compat. repeat apply Rmult_integral_contrapositive_currified; auto using pow_nonzero. }
    split; [clear - E1 E; lra|exact E].
  - intros (E1 & E2). split; [clear - E1 E2; lra|]. rewrite E1, E2. field. repeat split; auto.
Qed.
(** classical telescopes (paraboloid, and a conic with the foci of the primary and of the whole) have the coma of the
    paraboloid of the same focal length; exactly one pair of conics is free of spherical aberration and coma, for all stops *)
Theorem C98_telescope d0 c1 k1 d c2 k2 es axis l l1 l2 y yc uc rs xs : is_mirrors (tel d0 c1 k1 d c2 k2) es -> y <> 0 -> uc <> 0 ->
  c1 <> 0 -> c2 <> 0 -> d <> 0 -> tel_s c1 d <> 0 -> tel_power c1 c2 d <> 0 ->
  ptrace axis l es (y, yc) (0, uc) 1 = Some rs -> aberrations l1 l2 es rs = Some xs ->
  let f := tel_power c1 c2 d in let m := tel_m c1 c2 d in let s := tel_s c1 d in let H := - (uc * y) in
  (k1 = -1 -> k2 = classical_k2 m -> column tsc xs = 0 /\ column cc xs = (y * f) ^ 2 / 4 /\ column cc xs <> 0) /\
  (column tsc xs = 0 /\ column cc xs = 0 <-> k1 = aplanatic_k1 m s /\ k2 = aplanatic_k2 m s) /\
  (column tsc xs = 0 -> column cc xs = 0 -> column tac xs = H * f * (2 * m - 1 + s) / (4 * s * m)).
Proof.
  intros M Y UC C1 C2 D S F P A f m s H.
  assert (HE : 0 * yc - uc * y = H) by (unfold H; ring). assert (HZ : H <> 0) by (unfold H; intros Z; assert (Q : uc * y = 0) by lra; apply Rmult_integral in Q as [Q|Q]; auto).
  pose proof (given (tel d0 c1 k1 d c2 k2) es axis l l1 l2 (y, yc) (0, uc) rs xs M) as T. cbn [fst snd] in T. rewrite HE in T.
  specialize (T HZ (tel_heights d0 c1 k1 d c2 k2 y Y S) P A).
  destruct (two_mirrors d0 c1 k1 d c2 k2 y H yc uc Y HZ S HE) as (T1 & T2 & T3). cbv zeta in T1, T2, T3. unfold tel in T. rewrite <- T in T1, T2, T3.
  change (tsc (sums xs)) with (column tsc xs) in T1. change (cc (sums xs)) with (column cc xs) in T2. change (tac (sums xs)) with (column tac xs) in T3. fold f s in T1, T2, T3.
  set (q := (yc + d0 * uc) / y) in *. clearbody q.
  pose proof (aplanat_algebra c1 k1 d c2 k2 y H q Y HZ C1 C2 D S F) as AP. cbv zeta in AP. fold f s m in AP. rewrite <- T1, <- T2 in AP.
  assert (EM : m = - (2 * c1) / f) by reflexivity. assert (C1E : 2 * c1 = - (m * f)) by (rewrite EM; field; exact F).
  assert (MN : m <> 0) by (intros Z; apply C1; rewrite Z in C1E; clear - C1E; lra).
  assert (C2E : 2 * c2 * s = f * (m - 1)) by (replace (f * (m - 1)) with (m * f - f) by ring; replace (m * f) with (- (2 * c1)) by (clear - C1E; lra); unfold f, tel_power, s, tel_s; ring).
  assert (M1 : m - 1 <> 0) by (intros Z; rewrite Z, Rmult_0_r in C2E; apply Rmult_integral in C2E as [Q|Q]; [clear - C2 Q; lra|auto]).
  split; [|split; [exact AP|]].
  - intros K1 K2. rewrite K1, K2 in *. assert (A2 : y ^ 2 * (2 * c1 - f) ^ 2 / 4 + classical_k2 m * c2 ^ 2 * (y * s) ^ 2 = 0).
    { replace (c2 ^ 2 * (y * s) ^ 2) with ((2 * c2 * s) ^ 2 * y ^ 2 / 4) by field. replace (classical_k2 m * c2 ^ 2 * (y * s) ^ 2) with (classical_k2 m * ((2 * c2 * s) ^ 2 * y ^ 2 / 4)) by field.
      rewrite C2E, C1E. unfold classical_k2. field. exact M1. }
    rewrite A2 in T1, T2. replace (1 + -1) with 0 in T1, T2 by ring.
    assert (E : column cc xs = (y * f) ^ 2 / 4) by (rewrite T2; unfold Rdiv; ring).
    split; [rewrite T1; unfold Rdiv; ring|]. split; [exact E|]. rewrite E. intros Z. assert (Q : (y * f) ^ 2 = 0) by (clear - Z; lra).
    revert Q. apply pow_nonzero. apply Rmult_integral_contrapositive_currified; assumption.
  - intros Z1 Z2. set (a1 := - (1 + k1) * c1 ^ 3 * y ^ 4 / H) in *. set (a2 := - (c2 * (y * s) ^ 2 / H) * (y ^ 2 * (2 * c1 - f) ^ 2 / 4 + k2 * c2 ^ 2 * (y * s) ^ 2)) in *.
    clearbody a1 a2. rewrite Z1 in T1. rewrite Z2 in T2. assert (A1 : a1 = - a2) by (clear - T1; lra). rewrite A1 in T2, T3. rewrite T3.
    assert (DE : d = (1 - s) / (m * f)).
    { unfold s, tel_s. rewrite C1E. field. auto. }
    rewrite DE in T2 |- *.
    assert (SN : 1 - s <> 0) by (intros Z; apply D; rewrite DE, Z; field; auto).
    fold f in F. fold s in S. clear EM AP. clearbody m f s.
    assert (C1F : c1 = - (m * f) / 2) by lra. assert (C2F : c2 = f * (m - 1) / (2 * s)) by (apply (Rmult_eq_reg_r (2 * s)); [replace (f * (m - 1) / (2 * s) * (2 * s)) with (f * (m - 1)) by (field; exact S); lra|apply Rmult_integral_contrapositive_currified; [lra|exact S]]).
    assert (A2 : a2 = m * f ^ 3 * y ^ 4 * s / (4 * H * (1 - s))).
    { apply (Rmult_eq_reg_l ((1 - s) * H / (m * f * y ^ 2 * s))).
      - replace ((1 - s) * H / (m * f * y ^ 2 * s) * (m * f ^ 3 * y ^ 4 * s / (4 * H * (1 - s)))) with (y ^ 2 * f ^ 2 / 4) by (field; repeat split; auto).
        replace ((1 - s) * H / (m * f * y ^ 2 * s) * a2) with ((1 - s) / (m * f) * H / (y ^ 2 * s) * a2) by (field; repeat split; auto). lra.
      - unfold Rdiv. repeat apply Rmult_integral_contrapositive_currified; auto. apply Rinv_neq_0_compat. repeat apply Rmult_integral_contrapositive_currified; auto using pow_nonzero. }
    rewrite A2, C1F, C2F. field. repeat split; auto.
Qed.
(** two paraboloids with a common focus: parallel light in, parallel light out, without spherical aberration, coma and
    astigmatism, for all stops *)
Theorem C98_mersenne d0 c1 d c2 es axis l l1 l2 y yc uc rs xs : is_mirrors (tel d0 c1 (-1) d c2 (-1)) es -> y <> 0 -> uc <> 0 ->
  tel_s c1 d <> 0 -> tel_power c1 c2 d = 0 -> ptrace axis l es (y, yc) (0, uc) 1 = Some rs -> aberrations l1 l2 es rs = Some xs ->
  column tsc xs = 0 /\ column cc xs = 0 /\ column tac xs = 0 /\ column tpc xs = - (2 * uc * y * c1 ^ 2 * d / (1 + 2 * c1 * d)).
Proof.
  intros M Y UC S F P A. set (H := - (uc * y)).
  assert (HE : 0 * yc - uc * y = H) by (unfold H; ring). assert (HZ : H <> 0) by (unfold H; intros Z; assert (Q : uc * y = 0) by lra; apply Rmult_integral in Q as [Q|Q]; auto).
  pose proof (given (tel d0 c1 (-1) d c2 (-1)) es axis l l1 l2 (y, yc) (0, uc) rs xs M) as T. cbn [fst snd] in T. rewrite HE in T.
  specialize (T HZ (tel_heights d0 c1 (-1) d c2 (-1) y Y S) P A).
  destruct (two_mirrors d0 c1 (-1) d c2 (-1) y H yc uc Y HZ S HE) as (T1 & T2 & T3). cbv zeta in T1, T2, T3. unfold tel in T. rewrite <- T in T1, T2, T3.
  change (tsc (sums xs)) with (column tsc xs) in T1. change (cc (sums xs)) with (column cc xs) in T2. change (tac (sums xs)) with (column tac xs) in T3.
  destruct (total_fixed H (tel d0 c1 (-1) d c2 (-1)) y 0 yc uc) as (T4 & _). unfold tel in T4. rewrite <- T in T4. change (tpc (sums xs)) with (column tpc xs) in T4. cbn [curvatures fold_right mi_c] in T4.
  assert (C2 : c2 = - c1 / tel_s c1 d) by (apply (Rmult_eq_reg_r (tel_s c1 d)); [replace (- c1 / tel_s c1 d * tel_s c1 d) with (- c1) by (field; exact S); unfold tel_power in F; unfold tel_s; lra|exact S]).
  rewrite F in T1, T2, T3. rewrite T1, T2, T3, T4. unfold H in *. rewrite C2. unfold tel_s in *. repeat split; field; repeat split; auto.
Qed.
(** one spherical mirror with the stop in its centre of curvature (the chief ray meets it at right angles): spherical
    aberration and field curvature only; no other stop removes its coma *)
Theorem C98_sphere d0 c es axis l l1 l2 y u rs xs : is_mirrors [Mirror d0 c 0] es -> let H := fst u * snd y - snd u * fst y in H <> 0 -> c <> 0 ->
  let h := fst y + d0 * fst u in let hc := snd y + d0 * snd u in h <> 0 -> c * h + fst u <> 0 ->
  ptrace axis l es y u 1 = Some rs -> aberrations l1 l2 es rs = Some xs ->
  column tsc xs <> 0 /\ (column cc xs = 0 <-> c * hc + snd u = 0) /\
  (c * hc + snd u = 0 -> column cc xs = 0 /\ column tac xs = 0 /\ column dc xs = 0 /\ column tpc xs = c * H).
Proof.
  intros M H HZ C h hc HN I P A. pose proof (given [Mirror d0 c 0] es axis l l1 l2 y u rs xs M HZ) as T. fold H in T.
  specialize (T ltac:(cbn [rays mi_d]; repeat constructor; exact HN) P A). cbn [total mi_d mi_c mi_k] in T. fold h hc in T.
  set (i := c * h + fst u) in *. set (ic := c * hc + snd u).
  assert (HH : H = fst u * hc - snd u * h) by (unfold H, h, hc; ring). assert (HI : H = i * hc - ic * h) by (unfold i, ic; rewrite HH; ring).
  assert (T1 : column tsc xs = - (c * h ^ 2 / H) * i ^ 2) by (change (column tsc xs) with (tsc (sums xs)); rewrite T; unfold plus, stop_shifted, reflection, no_coefs; cbn [tsc]; unfold i; field; auto).
  assert (T2 : column cc xs = - (c * h ^ 2 / H) * i * ic).
  { change (column cc xs) with (cc (sums xs)). rewrite T. unfold plus, stop_shifted, reflection, no_coefs. cbn [tsc cc].
    replace ic with ((i * hc - H) / h) by (rewrite HI; field; exact HN). unfold i. field. auto. }
  assert (T3 : column tac xs = - (c * h ^ 2 / H) * ic ^ 2).
  { change (column tac xs) with (tac (sums xs)). rewrite T. unfold plus, stop_shifted, reflection, no_coefs. cbn [tsc cc tac].
    replace ic with ((i * hc - H) / h) by (rewrite HI; field; exact HN). unfold i. field. auto. }
  assert (T4 : column tpc xs = c * H) by (change (column tpc xs) with (tpc (sums xs)); rewrite T; unfold plus, stop_shifted, reflection, no_coefs; cbn [tpc]; ring).
  assert (N : c * h ^ 2 / H <> 0) by (apply Rmult_integral_contrapositive_currified; [apply Rmult_integral_contrapositive_currified; [exact C|apply pow_nonzero; exact HN]|apply Rinv_neq_0_compat; exact HZ]).
  split; [rewrite T1; apply Rmult_integral_contrapositive_currified; [apply Ropp_neq_0_compat; exact N|apply pow_nonzero; exact I]|]. split.
  - rewrite T2. split; [|intros ->; ring]. intros Z. apply Rmult_integral in Z as [Z|Z]; [|exact Z]. apply Rmult_integral in Z as [Z|Z]; [lra|contradiction].
  - intros Z. rewrite T2, T3, T4, Z. split; [ring|]. split; [ring|]. split; [|reflexivity].
    change (column dc xs) with (dc (sums xs)). rewrite T. unfold plus, stop_shifted, reflection, no_coefs. cbn [tsc cc tac tpc dc].
    assert (HC : H = i * hc) by (rewrite HI, Z; ring). rewrite HC. assert (HCN : hc <> 0) by (intros Q; apply HZ; rewrite HC, Q; ring). unfold i in *. field. auto.
Qed.

(** ** Examples: a primary of focal length 2, a secondary one unit before it that doubles the focal length; two paraboloids; a
    sphere *)
Definition glass_mirror : material := Material (fun _ => 1) true false.
Definition mirror_el (p : placement) (c k : R) : element := El p (Some 1) (Sph (Some glass_mirror) (Surf c k None false)).
Definition mirror_system (p : placement) (cks : list (R * R)) : list element :=
  El p None (Sph (Some vacuum) (Surf 0 0 None false)) :: map (fun ck => mirror_el p (fst ck) (snd ck)) cks ++ [El p None Plain].
Lemma mirror_system_is p cks : p_angles p = v0 -> p_distance p = 1 -> is_mirrors (map (fun ck => Mirror 1 (fst ck) (snd ck)) cks) (mirror_system p cks).
Proof.
  intros A D. do 3 eexists. split; [reflexivity|]. split.
  - induction cks as [|ck cks IH]; cbn [map]; constructor; auto. split; [exact A|]. split; [exact D|]. exists glass_mirror, false. repeat split.
  - split; [exact A|exact I].
Qed.
Example C98_example : exists p, forall k1 k2, let ms := tel 1 (-1/4) k1 1 (1/4) k2 in let es := mirror_system p [(-1/4, k1); (1/4, k2)] in
  is_mirrors ms es /\ tel_s (-1/4) 1 = 1/2 /\ tel_power (-1/4) (1/4) 1 = 1/4 /\ tel_m (-1/4) (1/4) 1 = 2 /\
  exists rs xs, ptrace true 0 es (1, -1/10) (0, 1/10) 1 = Some rs /\ aberrations 0 1 es rs = Some xs /\
    (k1 = -1 -> k2 = -9 -> column tsc xs = 0 /\ column cc xs = 1/64) /\
    (column tsc xs = 0 /\ column cc xs = 0 <-> k1 = -3/2 /\ k2 = -17) /\ (k1 = -3/2 -> k2 = -17 -> column tac xs = -7/320).
Proof.
  destruct (centred_axis 1) as (p & _ & _ & D & _ & A); [lra|]. exists p. intros k1 k2 ms es. pose proof (mirror_system_is p [(-1/4, k1); (1/4, k2)] A D : is_mirrors ms es) as M.
  assert (S : tel_s (-1/4) 1 = 1/2) by (unfold tel_s; field). assert (F : tel_power (-1/4) (1/4) 1 = 1/4) by (unfold tel_power; field). assert (E : tel_m (-1/4) (1/4) 1 = 2) by (unfold tel_m; rewrite F; field).
  split; [exact M|]. split; [exact S|]. split; [exact F|]. split; [exact E|].
  destruct (C98_mirrors ms es true 0 0 1 (1, -1/10) (0, 1/10) M) as (rs & xs & P & AB & _); [cbn; lra|]. exists rs, xs. split; [exact P|]. split; [exact AB|].
  pose proof (C98_telescope 1 (-1/4) k1 1 (1/4) k2 es true 0 0 1 1 (-1/10) (1/10) rs xs M) as T. rewrite S, F in T. specialize (T ltac:(lra) ltac:(lra) ltac:(lra) ltac:(lra) ltac:(lra) ltac:(lra) ltac:(lra) P AB).
  cbv zeta in T. rewrite E in T. destruct T as (T1 & T2 & T3).
  assert (K1 : aplanatic_k1 2 (1/2) = -3/2) by (unfold aplanatic_k1; field). assert (K2 : aplanatic_k2 2 (1/2) = -17) by (unfold aplanatic_k2; field). rewrite K1, K2 in T2.
  split; [intros X1 X2; destruct (T1 X1) as (Y1 & Y2 & _); [rewrite X2; unfold classical_k2; field|]; split; [exact Y1|rewrite Y2; field]|].
  split; [exact T2|]. intros X1 X2. destruct (proj2 T2 (conj X1 X2)) as (Z1 & Z2). rewrite (T3 Z1 Z2). field.
Qed.
(** parallel light reduced two times by two confocal paraboloids, and a sphere of radius two with the stop in its centre *)
Example C98_more : exists p, let es := mirror_system p [(-1/4, -1); (1/2, -1)] in let es' := mirror_system p [(-1/2, 0)] in
  tel_power (-1/4) (1/2) 1 = 0 /\ is_mirrors (tel 1 (-1/4) (-1) 1 (1/2) (-1)) es /\ is_mirrors [Mirror 1 (-1/2) 0] es' /\
  (exists rs xs, ptrace true 0 es (1, 0) (0, 1/10) 1 = Some rs /\ aberrations 0 1 es rs = Some xs /\ column tsc xs = 0 /\ column cc xs = 0 /\ column tac xs = 0 /\ column tpc xs = -1/40) /\
  exists rs xs, ptrace true 0 es' (1, 1/10) (0, 1/10) 1 = Some rs /\ aberrations 0 1 es' rs = Some xs /\ column tsc xs <> 0 /\ column cc xs = 0 /\ column tac xs = 0 /\ column dc xs = 0.
Proof.
  destruct (centred_axis 1) as (p & _ & _ & D & _ & A); [lra|]. exists p. intros es es'.
  assert (F : tel_power (-1/4) (1/2) 1 = 0) by (unfold tel_power; field). split; [exact F|].
  pose proof (mirror_system_is p [(-1/4, -1); (1/2, -1)] A D : is_mirrors (tel 1 (-1/4) (-1) 1 (1/2) (-1)) es) as M. split; [exact M|].
  pose proof (mirror_system_is p [(-1/2, 0)] A D : is_mirrors [Mirror 1 (-1/2) 0] es') as M'. split; [exact M'|]. split.
  - destruct (C98_mirrors _ es true 0 0 1 (1, 0) (0, 1/10) M) as (rs & xs & P & AB & _); [cbn; lra|]. exists rs, xs. split; [exact P|]. split; [exact AB|].
    destruct (C98_mersenne 1 (-1/4) 1 (1/2) es true 0 0 1 1 0 (1/10) rs xs M ltac:(lra) ltac:(lra) ltac:(unfold tel_s; lra) F P AB) as (T1 & T2 & T3 & T4). rewrite T4. repeat (split; [assumption|]). field.
  - destruct (C98_mirrors _ es' true 0 0 1 (1, 1/10) (0, 1/10) M') as (rs & xs & P & AB & _); [cbn; lra|]. exists rs, xs. split; [exact P|]. split; [exact AB|].
    destruct (C98_sphere 1 (-1/2) es' true 0 0 1 (1, 1/10) (0, 1/10) rs xs M' ltac:(cbn; lra) ltac:(lra) ltac:(cbn; lra) ltac:(cbn; lra) P AB) as (T1 & _ & T2). cbn [fst snd] in T2.
    destruct (T2 ltac:(lra)) as (T3 & T4 & T5 & _). auto.
Qed.
