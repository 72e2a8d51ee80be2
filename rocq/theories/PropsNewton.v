(** Property C95: the iterative intersection with aspheric surfaces.  On a piece of the ray inside the domain of the
    surface, where the ray is nowhere tangential, there is at most one intersection; the iteration finds it if it starts
    close enough, and what it returns is wrong by at most the square of the tolerance. *)
From Coq Require Import Reals List Lra Lia Psatz Ranalysis5.
From Verif Require Import Base Vec RotModel ElementModel ElementProofs PropsElement NewtonModel.
Import ListNotations.
Open Scope R_scope.

(** ** Specification *)
(** piece [a, b] of the ray: inside the domain of the conic, cosine between direction and (unnormalised) normal at least
    [m] in size and changing at most by [L] per length *)
Definition regular_piece (s : surf) (y u : vec) (a b m L : R) : Prop :=
  (forall t, a <= t <= b -> 0 < 1 - (1 + s_k s) * s_c s ^ 2 * r2_of (at_ray y u t)) /\
  (forall t N, a <= t <= b -> surface_normal s (at_ray y u t) = Some N -> m <= Rabs (dot N u)) /\
  (forall t t' N N', a <= t <= b -> a <= t' <= b -> surface_normal s (at_ray y u t) = Some N -> surface_normal s (at_ray y u t') = Some N' ->
     Rabs (dot N u - dot N' u) <= L * Rabs (t - t')).
(** the point at [t] of the ray is on the surface *)
Definition meets (s : surf) (y u : vec) (t : R) : Prop := sag_formula (s_c s) (s_k s) (coeffs s) (at_ray y u t) = 0.

(** ** Newton's method for a function with Lipschitz derivative *)
Section Numeric.
Variables (f g : R -> R) (a b m L : R).
Hypothesis DER : forall t, a <= t <= b -> derivable_pt_lim f t (g t).
Hypothesis LOW : forall t, a <= t <= b -> m <= Rabs (g t).
Hypothesis LIP : forall s t, a <= s <= b -> a <= t <= b -> Rabs (g s - g t) <= L * Rabs (s - t).
Hypothesis MP : 0 < m.
Lemma unique_zero s t : a <= s <= b -> a <= t <= b -> f s = 0 -> f t = 0 -> s = t.
Proof.
  assert (G : forall s t, a <= s <= b -> a <= t <= b -> f s = 0 -> f t = 0 -> ~ s < t).
  { intros s' t' S T FS FT ST. destruct (MVT_cor2 f g s' t' ST) as (c & E & C); [intros c C; apply DER; lra|].
    rewrite FS, FT in E. assert (Z : g c = 0) by nra. specialize (LOW c ltac:(lra)). rewrite Z, Rabs_R0 in LOW. lra. }
  intros S T FS FT. destruct (Rtotal_order s t) as [H|[H|H]]; [exfalso; exact (G s t S T FS FT H)|exact H|exfalso; exact (G t s T S FT FS H)].
Qed.
Lemma taylor_side (e : R) s t : e = 1 \/ e = -1 -> a <= s <= b -> a <= t <= b -> 0 <= L / 2 * (s - t) ^ 2 + e * (f s - f t - g t * (s - t)).
Proof.
  intros E S T. set (h := fun x => L / 2 * (x - t) ^ 2 + e * (f x - f t - g t * (x - t))).
  assert (DH : forall x, a <= x <= b -> derivable_pt_lim h x (L * (x - t) + e * (g x - g t))).
  { intros x X. unfold h. replace (L * (x - t) + e * (g x - g t)) with (L / 2 * (INR 2 * (x - t) ^ pred 2 * (1 - 0)) + e * (g x - 0 - g t * (1 - 0))) by (cbn; field).
    apply derivable_pt_lim_plus.
    - apply derivable_pt_lim_scal. apply (derivable_pt_lim_comp (fun x => x - t) (fun y => y ^ 2)).
      + apply derivable_pt_lim_minus; [apply derivable_pt_lim_id|apply derivable_pt_lim_const].
      + apply derivable_pt_lim_pow.
    - apply derivable_pt_lim_scal. apply derivable_pt_lim_minus; [apply derivable_pt_lim_minus; [apply DER; exact X|apply derivable_pt_lim_const]|].
      apply derivable_pt_lim_scal. apply derivable_pt_lim_minus; [apply derivable_pt_lim_id|apply derivable_pt_lim_const]. }
  assert (H0 : h t = 0) by (unfold h; ring). change (0 <= h s).
  assert (SLOPE : forall c, a <= c <= b -> Rabs (e * (g c - g t)) <= L * Rabs (c - t)).
  { intros c C. rewrite Rabs_mult. replace (Rabs e) with 1 by (destruct E as [-> | ->]; unfold Rabs; destruct (Rcase_abs _); lra). rewrite Rmult_1_l. apply LIP; auto. }
  destruct (Rtotal_order s t) as [H|[->|H]].
  - destruct (MVT_cor2 h (fun x => L * (x - t) + e * (g x - g t)) s t H) as (c & Q & C); [intros c C; apply DH; lra|].
    specialize (SLOPE c ltac:(lra)). rewrite (Rabs_left1 (c - t)) in SLOPE by lra.
    assert (e * (g c - g t) <= L * - (c - t)) by (eapply Rle_trans; [apply Rle_abs|exact SLOPE]). rewrite H0 in Q. nra.
  - rewrite H0. lra.
  - destruct (MVT_cor2 h (fun x => L * (x - t) + e * (g x - g t)) t s H) as (c & Q & C); [intros c C; apply DH; lra|].
    specialize (SLOPE c ltac:(lra)). rewrite (Rabs_right (c - t)) in SLOPE by lra.
    assert (- (e * (g c - g t)) <= L * (c - t)) by (eapply Rle_trans; [apply Rle_abs|rewrite Rabs_Ropp; exact SLOPE]). rewrite H0 in Q. nra.
Qed.
Lemma newton_step x t : a <= x <= b -> a <= t <= b -> f x = 0 -> Rabs (t - f t / g t - x) <= L / (2 * m) * (t - x) ^ 2.
Proof.
  intros X T FX. pose proof (LOW t T) as LT. assert (GN : g t <> 0) by (intros Z; rewrite Z, Rabs_R0 in LT; lra).
  assert (Q : t - f t / g t - x = (f x - f t - g t * (x - t)) / g t) by (rewrite FX; field; exact GN). rewrite Q.
  unfold Rdiv at 1. rewrite Rabs_mult, Rabs_inv.
  assert (B : Rabs (f x - f t - g t * (x - t)) <= L / 2 * (x - t) ^ 2).
  { apply Rabs_le. pose proof (taylor_side 1 x t (or_introl eq_refl) X T). pose proof (taylor_side (-1) x t (or_intror eq_refl) X T). lra. }
  assert (I : / Rabs (g t) <= / m) by (apply Rinv_le_contravar; auto).
  replace (L / (2 * m) * (t - x) ^ 2) with (L / 2 * (x - t) ^ 2 * / m) by (field; lra).
  apply Rmult_le_compat; [apply Rabs_pos|left; apply Rinv_0_lt_compat; lra|exact B|exact I].
Qed.
End Numeric.

(** ** The loop *)
Section Loop.
Variables (f g : R -> R) (F G : R -> option R) (x e0 K tol : R).
Hypothesis FF : forall t, Rabs (t - x) <= e0 -> F t = Some (f t).
Hypothesis GG : forall t, Rabs (t - x) <= e0 -> G t = Some (g t).
Hypothesis GN : forall t, Rabs (t - x) <= e0 -> g t <> 0.
Hypothesis UN : forall t, Rabs (t - x) <= e0 -> f t = 0 -> t = x.
Hypothesis ST : forall t, Rabs (t - x) <= e0 -> Rabs (t - f t / g t - x) <= K * (t - x) ^ 2.
Hypothesis K0 : 0 <= K.
Hypothesis TP : 0 <= tol.
Lemma loop_accuracy k : forall t r, Rabs (t - x) <= e0 -> K * Rabs (t - x) <= 1 / 2 -> newton_loop F G tol k t = Some r -> Rabs (r - x) <= 4 * K * tol ^ 2.
Proof.
  assert (E : forall z : R, z ^ 2 = Rabs z * Rabs z) by (intros z; rewrite <- Rabs_mult, Rabs_right by nra; ring).
  induction k as [|k IH]; intros t r T H N; [discriminate|]. cbn [newton_loop] in N. rewrite FF in N by exact T. cbn [obind] in N.
  destruct (Req_EM_T (f t) 0) as [Z|Z].
  - injection N as <-. rewrite (UN t T Z). unfold Rminus. rewrite Rplus_opp_r, Rabs_R0. nra.
  - rewrite GG in N by exact T. cbn [obind] in N. rewrite fdiv_some in N by (apply GN; exact T). cbn [obind] in N.
    pose proof (ST t T) as S. rewrite E in S. set (p := t - f t / g t) in *. pose proof (Rabs_pos (t - x)) as P.
    assert (HALF : Rabs (p - x) <= Rabs (t - x) / 2) by nra.
    destruct (Rle_dec (Rabs (p - t)) tol) as [Q|_].
    + injection N as <-. assert (TT : Rabs (t - x) <= Rabs (p - t) + Rabs (p - x)).
      { replace (t - x) with (- (p - t) + (p - x)) by ring. eapply Rle_trans; [apply Rabs_triang|]. rewrite Rabs_Ropp. lra. }
      assert (T2 : Rabs (t - x) <= 2 * tol) by lra. eapply Rle_trans; [exact S|].
      assert (Rabs (t - x) * Rabs (t - x) <= 2 * tol * (2 * tol)) by (apply Rmult_le_compat; auto). nra.
    + apply (IH p r); [lra| |exact N]. pose proof (Rabs_pos (p - x)). nra.
Qed.
(** last step if it starts [e] away with [k] more steps before it *)
Fixpoint last_step (k : nat) (e : R) : R := match k with O => e + K * e ^ 2 | S k => last_step k (K * e ^ 2) end.
Lemma last_step_mono k : forall d e, 0 <= d <= e -> last_step k d <= last_step k e.
Proof.
  assert (Q : forall d e, 0 <= d <= e -> 0 <= K * d ^ 2 <= K * e ^ 2).
  { intros d e D. split; [apply Rmult_le_pos; [exact K0|nra]|]. apply Rmult_le_compat_l; [exact K0|]. apply pow_incr. exact D. }
  induction k as [|k IH]; intros d e D; cbn [last_step]; [specialize (Q d e D); lra|]. apply IH. apply Q. exact D.
Qed.
Lemma loop_success k : forall t, Rabs (t - x) <= e0 -> K * Rabs (t - x) <= 1 -> last_step k (Rabs (t - x)) <= tol -> exists r, newton_loop F G tol (S k) t = Some r.
Proof.
  assert (E : forall z : R, z ^ 2 = Rabs z * Rabs z) by (intros z; rewrite <- Rabs_mult, Rabs_right by nra; ring).
  induction k as [|k IH]; intros t T H B; cbn [newton_loop]; rewrite FF by exact T; cbn [obind]; (destruct (Req_EM_T (f t) 0) as [Z|Z]; [eauto|]);
    rewrite GG by exact T; cbn [obind]; rewrite fdiv_some by (apply GN; exact T); cbn [obind]; pose proof (ST t T) as S; rewrite E in S; set (p := t - f t / g t) in *; pose proof (Rabs_pos (t - x)) as P.
  - cbn [last_step] in B. destruct (Rle_dec (Rabs (p - t)) tol) as [_|Q]; [eauto|]. exfalso. apply Q.
    replace (p - t) with ((p - x) + - (t - x)) by ring. eapply Rle_trans; [apply Rabs_triang|]. rewrite Rabs_Ropp. nra.
  - destruct (Rle_dec (Rabs (p - t)) tol) as [_|_]; [eauto|]. pose proof (Rabs_pos (p - x)).
    assert (Rabs (p - x) <= Rabs (t - x)) by nra. apply IH; [lra|nra|]. eapply Rle_trans; [|exact B]. cbn [last_step]. apply last_step_mono. nra.
Qed.
End Loop.

(** ** On the surface *)
Lemma at_ray_shift y u t h : at_ray y u (t + h) = vadd3 (at_ray y u t) (vmul3 h u).
Proof. unfold at_ray. apply vec_eq; cbn [vx vy vz vadd3 vmul3]; ring. Qed.
Lemma piece_der s y u t : 0 < 1 - (1 + s_k s) * s_c s ^ 2 * r2_of (at_ray y u t) ->
  surface_sag s (at_ray y u t) = Some (sag_formula (s_c s) (s_k s) (coeffs s) (at_ray y u t)) /\
  exists N, surface_normal s (at_ray y u t) = Some N /\ derivable_pt_lim (fun t => sag_formula (s_c s) (s_k s) (coeffs s) (at_ray y u t)) t (dot N u).
Proof.
  intros P. destruct (C14_normal_is_gradient s (at_ray y u t) P) as (S & N & EN & D). split; [exact S|]. exists N. split; [exact EN|].
  specialize (D u). intros eps EP. destruct (D eps EP) as (del & H). exists del. intros h HN HD. specialize (H h HN HD).
  rewrite at_ray_shift. replace (vadd3 (at_ray y u t) (vmul3 (0 + h) u)) with (vadd3 (at_ray y u t) (vmul3 h u)) in H by (rewrite Rplus_0_l; reflexivity).
  replace (vadd3 (at_ray y u t) (vmul3 0 u)) with (at_ray y u t) in H by (apply vec_eq; cbn [vx vy vz vadd3 vmul3]; ring). exact H.
Qed.
Definition slope_of (s : surf) (y u : vec) (t : R) : R := match surface_normal s (at_ray y u t) with Some N => dot N u | None => 0 end.
Lemma piece_numeric s y u a b m L : regular_piece s y u a b m L -> let f := fun t => sag_formula (s_c s) (s_k s) (coeffs s) (at_ray y u t) in let g := slope_of s y u in
  (forall t, a <= t <= b -> surface_sag s (at_ray y u t) = Some (f t)) /\
  (forall t, a <= t <= b -> (do n <- surface_normal s (at_ray y u t); Some (dot n u)) = Some (g t)) /\
  (forall t, a <= t <= b -> derivable_pt_lim f t (g t)) /\ (forall t, a <= t <= b -> m <= Rabs (g t)) /\
  (forall s t, a <= s <= b -> a <= t <= b -> Rabs (g s - g t) <= L * Rabs (s - t)).
Proof.
  intros (DOM & LOW & LIP) f g.
  assert (ALL : forall t, a <= t <= b -> surface_sag s (at_ray y u t) = Some (f t) /\ exists N, surface_normal s (at_ray y u t) = Some N /\ g t = dot N u /\ derivable_pt_lim f t (dot N u)).
  { intros t T. destruct (piece_der s y u t (DOM t T)) as (S & N & EN & D). split; [exact S|]. exists N. split; [exact EN|]. split; [unfold g, slope_of; rewrite EN; reflexivity|exact D]. }
  split; [|split; [|split; [|split]]].
  - intros t T. apply ALL. exact T.
  - intros t T. destruct (ALL t T) as (_ & N & EN & EG & _). rewrite EN, EG. reflexivity.
  - intros t T. destruct (ALL t T) as (_ & N & _ & EG & D). rewrite EG. exact D.
  - intros t T. destruct (ALL t T) as (_ & N & EN & EG & _). rewrite EG. eapply LOW; eauto.
  - intros p t P T. destruct (ALL t T) as (_ & N & EN & EG & _). destruct (ALL p P) as (_ & N' & EN' & EG' & _). rewrite EG, EG'. eapply LIP; eauto.
Qed.
(** at most one intersection on a regular piece, and one if the ends are on different sides *)
Theorem C95_unique s y u a b m L : regular_piece s y u a b m L -> 0 < m ->
  (forall t t', a <= t <= b -> a <= t' <= b -> meets s y u t -> meets s y u t' -> t = t') /\
  (a < b -> sag_formula (s_c s) (s_k s) (coeffs s) (at_ray y u a) < 0 < sag_formula (s_c s) (s_k s) (coeffs s) (at_ray y u b) ->
     exists t, a < t < b /\ meets s y u t).
Proof.
  intros REG M. destruct (piece_numeric s y u a b m L REG) as (_ & _ & DER & LOW & LIP). split.
  - intros t t' T T' H H'. exact (unique_zero _ _ a b m DER LOW M t t' T T' H H').
  - intros AB (NA & PB). set (f := fun t => sag_formula (s_c s) (s_k s) (coeffs s) (at_ray y u t)) in *.
    destruct (IVT_interv f a b) as (z & (Z1 & Z2) & FZ); auto.
    { intros t T. apply derivable_continuous_pt. exists (slope_of s y u t). apply DER. exact T. }
    exists z. split; [|exact FZ]. change (f a < 0) in NA. change (0 < f b) in PB.
    split; apply Rnot_le_lt; intros H; [assert (z = a) by lra|assert (z = b) by lra]; subst z; lra.
Qed.
(** the iteration starts [e0] from the intersection: what it returns is at most 2 L / m 1e-14 off, and it returns
    something if q = L e0 / (2 m) is small enough *)
Theorem C95_newton s l y u x p0 m L : s_asph s = Some l -> plane_intercept y u = Some p0 -> meets s y u x -> 0 < m -> 0 <= L ->
  let e0 := Rabs (p0 - x) in let q := L / (2 * m) * e0 in regular_piece s y u (x - e0) (x + e0) m L ->
  (forall r, q <= 1 / 2 -> intercept newton_scipy s y u = Some r -> Rabs (r - x) <= 2 * (L / m) * (1 / 10000000) ^ 2) /\
  (q <= 1 -> q ^ 15 * (1 + q ^ 16) * e0 <= 1 / 10000000 -> exists r, intercept newton_scipy s y u = Some r).
Proof.
  intros A P MX M L0 e0 q REG. destruct (piece_numeric s y u _ _ m L REG) as (FF & GG & DER & LOW & LIP).
  assert (EP : 0 <= e0) by apply Rabs_pos.
  assert (IN : forall t, Rabs (t - x) <= e0 -> x - e0 <= t <= x + e0) by (intros t T; unfold Rabs in T; destruct (Rcase_abs (t - x)); lra).
  assert (XI : x - e0 <= x <= x + e0) by lra.
  set (f := fun t => sag_formula (s_c s) (s_k s) (coeffs s) (at_ray y u t)) in *. set (g := slope_of s y u) in *. set (K := L / (2 * m)) in *.
  assert (K0 : 0 <= K) by (unfold K; apply Rmult_le_pos; [exact L0|left; apply Rinv_0_lt_compat; lra]).
  assert (GN : forall t, Rabs (t - x) <= e0 -> g t <> 0) by (intros t T Z; specialize (LOW t (IN t T)); rewrite Z, Rabs_R0 in LOW; lra).
  assert (UN : forall t, Rabs (t - x) <= e0 -> f t = 0 -> t = x) by (intros t T Z; exact (unique_zero f g _ _ m DER LOW M t x (IN t T) XI Z MX)).
  assert (ST : forall t, Rabs (t - x) <= e0 -> Rabs (t - f t / g t - x) <= K * (t - x) ^ 2) by (intros t T; exact (newton_step f g _ _ m L DER LOW LIP M x t XI (IN t T) MX)).
  assert (INT : intercept newton_scipy s y u = newton_loop (fun t => surface_sag s (at_ray y u t)) (fun t => do n <- surface_normal s (at_ray y u t); Some (dot n u)) (1 / 10000000) 5 p0).
  { unfold intercept. rewrite A. unfold newton_intercept, newton_scipy. rewrite P. reflexivity. }
  rewrite INT. split.
  - intros r Q N. replace (2 * (L / m) * (1 / 10000000) ^ 2) with (4 * K * (1 / 10000000) ^ 2) by (unfold K; field; lra).
    apply (loop_accuracy f g (fun t => surface_sag s (at_ray y u t)) (fun t => do n <- surface_normal s (at_ray y u t); Some (dot n u)) x e0 K (1 / 10000000)) with (k := 5%nat) (t := p0); auto; try (intros t T; first [apply FF | apply GG]; apply IN; exact T); try lra; fold e0; fold q; lra.
  - intros Q B. apply (loop_success f g (fun t => surface_sag s (at_ray y u t)) (fun t => do n <- surface_normal s (at_ray y u t); Some (dot n u)) x e0 K (1 / 10000000)); auto; try (intros t T; first [apply FF | apply GG]; apply IN; exact T); try lra; fold e0; try (fold q; lra).
    cbn [last_step]. eapply Rle_trans; [|exact B]. unfold q. right. ring.
Qed.
(** how to get [m]: the steepest slope of the surface against the inclination of the ray *)
Theorem C95_slope s y u t N steep : surface_normal s (at_ray y u t) = Some N -> 0 <= steep -> vx N * vx N + vy N * vy N <= steep * steep ->
  Rabs (vz u) - steep * sqrt (vx u * vx u + vy u * vy u) <= Rabs (dot N u).
Proof.
  intros EN SP B. assert (NZ : vz N = 1).
  { unfold surface_normal in EN. destruct (Req_EM_T (s_c s) 0).
    - destruct (s_asph s); injection EN as <-; reflexivity.
    - destruct (fsqrt _); [|discriminate]. cbn [obind] in EN. destruct (fdiv _ _); [|discriminate]. cbn [obind] in EN. injection EN as <-. reflexivity. }
  unfold dot. rewrite NZ, Rmult_1_l. set (h := vx N * vx u + vy N * vy u).
  assert (H : Rabs h <= steep * sqrt (vx u * vx u + vy u * vy u)).
  { set (w := vx u * vx u + vy u * vy u). assert (W : 0 <= w) by (unfold w; nra). apply Rsqr_incr_0_var; [|apply Rmult_le_pos; [exact SP|apply sqrt_pos]].
    rewrite <- Rsqr_abs. unfold Rsqr. replace (steep * sqrt w * (steep * sqrt w)) with (steep * steep * (sqrt w * sqrt w)) by ring. rewrite sqrt_sqrt by exact W.
    assert (C : h * h <= (vx N * vx N + vy N * vy N) * w).
    { unfold h, w. assert (0 <= (vx N * vy u - vy N * vx u) * (vx N * vy u - vy N * vx u)) by apply Rle_0_sqr. nra. }
    eapply Rle_trans; [exact C|]. apply Rmult_le_compat_r; [exact W|exact B]. }
  replace (vz u) with ((h + vz u) + - h) at 1 by ring. pose proof (Rabs_triang (h + vz u) (- h)) as T. rewrite Rabs_Ropp in T. lra.
Qed.

(** ** Example: z = (x^2 + y^2) / 20 and a ray inclined by 3/4; the intersection is 1 away from the vertex plane *)
Definition bowl : surf := Surf 0 0 (Some [1/20]) false.
Example C95_example : let y := V (17/5) 0 0 in let u := V (3/5) 0 (4/5) in
  dot u u = 1 /\ plane_intercept y u = Some 0 /\ meets bowl y u 1 /\ regular_piece bowl y u (1 - 1) (1 + 1) (1/2) (9/250) /\
  exists r, intercept newton_scipy bowl y u = Some r /\ Rabs (r - 1) <= 2 * (9/250 / (1/2)) * (1 / 10000000) ^ 2.
Proof.
  intros y u. assert (P : plane_intercept y u = Some 0) by (unfold plane_intercept, y, u; cbn [vz]; rewrite fdiv_some by lra; f_equal; field).
  assert (MX : meets bowl y u 1) by (unfold meets, sag_formula, bowl, coeffs, at_ray, y, u; cbn [s_c s_k s_asph vx vy vz vadd3 vmul3 asph_terms]; match goal with |- context [sqrt ?z] => replace z with 1 by ring end; rewrite sqrt_1; field).
  assert (NO : forall t, surface_normal bowl (at_ray y u t) = Some (V (- (17/5 + t * (3/5)) / 10) 0 1)).
  { intros t. unfold surface_normal, bowl. cbn [s_c s_asph]. destruct (Req_EM_T 0 0); [|lra]. unfold asph_slope, at_ray, y, u. cbn. f_equal. apply vec_eq; cbn [vx vy vz]; field. }
  assert (REG : regular_piece bowl y u (1 - 1) (1 + 1) (1/2) (9/250)).
  { split; [|split].
    - intros t T. unfold bowl. cbn [s_k s_c]. replace (1 - (1 + 0) * 0 ^ 2 * r2_of (at_ray y u t)) with 1 by ring. lra.
    - intros t N T E. rewrite NO in E. injection E as <-. unfold dot, u. cbn [vx vy vz]. rewrite Rabs_right; lra.
    - intros t t' N N' T T' E E'. rewrite NO in E, E'. injection E as <-. injection E' as <-. unfold dot, u. cbn [vx vy vz].
      match goal with |- Rabs ?z <= _ => replace z with (- (9/250) * (t - t')) by field end. rewrite Rabs_mult, Rabs_Ropp, (Rabs_right (9/250)) by lra. lra. }
  assert (E0 : Rabs (0 - 1) = 1) by (rewrite Rabs_left; lra).
  split; [unfold dot, u; cbn; lra|]. split; [exact P|]. split; [exact MX|]. split; [exact REG|].
  destruct (C95_newton bowl [1/20] y u 1 0 (1/2) (9/250) eq_refl P MX ltac:(lra) ltac:(lra)) as (ACC & SUC); [rewrite E0; exact REG|].
  rewrite E0 in ACC, SUC. destruct SUC as (r & R); [lra| |].
  { assert (Q : 9 / 250 / (2 * (1 / 2)) * 1 = 9 / 250) by field. rewrite Q. lra. }
  exists r. split; [exact R|]. apply ACC; [lra|exact R].
Qed.
