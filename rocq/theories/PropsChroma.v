(** Property C94: colour.  Away from its poles a Sellmeier glass has an index that falls with the wavelength and a
    positive Abbe number; a biconvex lens of such a glass focuses blue light closer than red; lenses in contact focus
    F and C light together exactly if their powers divided by their Abbe numbers add up to zero. *)
From Coq Require Import Reals List Arith Bool Lra Lia Psatz.
From Verif Require Import Base SampleModel MaterialModel PropsMaterial PropsDispersion.
From Verif Require Import Vec RotModel RotProofs PlacementModel PlacementProofs ElementModel
  ParaxialModel ParaxialProofs PropsParaxial LimitProofs PropsLimit PupilModel ParaxTraceModel PropsConjugates PropsSolve PropsCardinal PropsDesign PropsPupil.
Import ListNotations.
Open Scope R_scope.

(** ** Normal dispersion *)
(** positive strengths, and squared pole wavelengths positive and outside [v^2, w^2] *)
Definition clear_of_poles (v w : R) (l : list (R * R)) : Prop :=
  Forall (fun b => 0 < fst b /\ 0 < snd b /\ (snd b < v ^ 2 \/ w ^ 2 < snd b)) l.
Lemma term_falls B C s t : 0 < B -> 0 < C -> s < t -> C < s \/ t < C -> B * t / (t - C) < B * s / (s - C).
Proof.
  intros HB HC ST P. assert (D : B * s / (s - C) - B * t / (t - C) = B * C * (t - s) * / ((s - C) * (t - C))) by (field; lra).
  assert (0 < B * C * (t - s) * / ((s - C) * (t - C))); [|lra].
  apply Rmult_lt_0_compat; [|apply Rinv_0_lt_compat; nra]. apply Rmult_lt_0_compat; [apply Rmult_lt_0_compat; auto|lra].
Qed.
Lemma terms_fall v w l : 0 < v -> v < w -> clear_of_poles v w l ->
  exists a b, sellmeier_terms (v ^ 2) (fun x => x) l = Some a /\ sellmeier_terms (w ^ 2) (fun x => x) l = Some b /\ (b <= a /\ (l <> [] -> b < a)) /\
    (Forall (fun c => snd c < v ^ 2) l -> fold_right Rplus 0 (map fst l) <= b).
Proof.
  intros V VW. assert (ST : v ^ 2 < w ^ 2) by nra. induction 1 as [|[B C] l (HB & HC & P) _ (a & b & EA & EB & (LE & _) & UV)].
  - exists 0, 0. cbn. repeat split; try lra. intros E; destruct E; reflexivity.
  - cbn [fst snd] in *. exists (B * v ^ 2 / (v ^ 2 - C) + a), (B * w ^ 2 / (w ^ 2 - C) + b).
    unfold sellmeier_terms in *. cbn [map osum fold_right fst snd] in *. unfold osum in EA, EB. rewrite EA, EB.
    rewrite !fdiv_some by lra. cbn [obind]. pose proof (term_falls B C _ _ HB HC ST P). split; [reflexivity|]. split; [reflexivity|]. split; [split; intros; lra|].
    intros F. inversion F as [|? ? F0 F']; subst. cbn [fst snd] in F0. specialize (UV F').
    assert (B <= B * w ^ 2 / (w ^ 2 - C)); [|lra].
    replace (B * w ^ 2 / (w ^ 2 - C)) with (B + B * C * / (w ^ 2 - C)) by (field; lra).
    assert (0 < B * C * / (w ^ 2 - C)); [|lra]. apply Rmult_lt_0_compat; [nra|apply Rinv_0_lt_compat; lra].
Qed.
(** falls with the wavelength: wherever the longer wavelength has an index, the shorter one has a larger one *)
Definition falls (n : R -> option R) (v w : R) : Prop := forall b, n w = Some b -> exists a, n v = Some a /\ 0 <= b < a.
Lemma root_falls x y : y < x -> forall b, fsqrt y = Some b -> exists a, fsqrt x = Some a /\ 0 <= b < a.
Proof.
  intros L b E. unfold fsqrt in *. destruct (Rle_dec 0 y) as [Y|]; [|discriminate]. injection E as <-.
  destruct (Rle_dec 0 x) as [X|]; [|lra]. eexists. split; [reflexivity|]. split; [apply sqrt_pos|apply sqrt_lt_1; lra].
Qed.
Theorem C94_normal v w l : 0 < v -> v < w -> l <> [] ->
  let squared := map (fun b => (fst b, snd b ^ 2)) l in
  (clear_of_poles v w squared ->
     falls (fun w => n_sellmeier w (flat l)) v w /\ forall c, falls (fun w => n_sellmeier_offset w (c :: flat l)) v w) /\
  (clear_of_poles v w l ->
     falls (fun w => n_sellmeier_squared w (flat l)) v w /\ falls (fun w => n_sellmeier_squared_transposed w (map fst l ++ map snd l)) v w /\
     forall c, falls (fun w => n_sellmeier_squared_offset w (c :: flat l)) v w).
Proof.
  intros V VW NE squared. split; intros P.
  - assert (NS : squared <> []) by (unfold squared; destruct l; [contradiction|discriminate]).
    destruct (terms_fall v w squared V VW P) as (a & b & EA & EB & (_ & LT) & _). specialize (LT NS).
    assert (Q : forall t, sellmeier_terms t (fun x => x ^ 2) l = sellmeier_terms t (fun x => x) squared).
    { intros t. unfold sellmeier_terms, squared. rewrite map_map. reflexivity. }
    split; [|intros c]; intros n; cbv beta; unfold n_sellmeier, n_sellmeier_offset; rewrite ?even_tail_flat, pairs_flat; cbn [item nth_error obind]; rewrite !Q, EA, EB; cbn [obind]; apply root_falls; lra.
  - destruct (terms_fall v w l V VW P) as (a & b & EA & EB & (_ & LT) & _). specialize (LT NE).
    split; [|split; [|intros c]]; intros n; cbv beta; unfold n_sellmeier_squared, n_sellmeier_squared_transposed, n_sellmeier_squared_offset;
      rewrite ?even_tail_flat, ?pairs_flat, ?halves_unzip; cbn [item nth_error obind]; rewrite EA, EB; cbn [obind]; apply root_falls; lra.
Qed.
(** between ultraviolet poles only, the index exists and exceeds its infrared limit *)
Theorem C94_ultraviolet w l : 0 < w -> Forall (fun b => 0 < fst b /\ 0 < snd b < w ^ 2) l ->
  exists n, n_sellmeier_squared w (flat l) = Some n /\ 0 <= n /\ 1 + fold_right Rplus 0 (map fst l) <= n ^ 2.
Proof.
  intros W F.
  assert (P : clear_of_poles w (w + 1) l) by (eapply Forall_impl; [|exact F]; cbv beta; intros b (A & B & C); split; [exact A|]; split; [exact B|left; exact C]).
  assert (SUM : 0 <= fold_right Rplus 0 (map fst l)).
  { clear - F. induction F as [|b l (A & _) _ IH]; cbn; lra. }
  assert (LOW : Forall (fun c => snd c < w ^ 2) l) by (eapply Forall_impl; [|exact F]; cbv beta; intros b (_ & _ & C); exact C).
  destruct (terms_fall w (w + 1) l W ltac:(lra) P) as (a & b & EA & _ & (LE & _) & UV). specialize (UV LOW).
  unfold n_sellmeier_squared. rewrite pairs_flat. cbn [obind]. rewrite EA. cbn [obind]. rewrite fsqrt_some by lra.
  eexists. split; [reflexivity|]. split; [apply sqrt_pos|]. rewrite pow2_sqrt by lra. lra.
Qed.
(** Abbe number of a glass whose index falls between F and C and is at least one there *)
Theorem C94_abbe index nC : falls index lambda_F lambda_d -> falls index lambda_d lambda_C -> index lambda_C = Some nC -> 1 <= nC ->
  exists n v, nd index = Some n /\ vd index = Some (Some v) /\ 1 < n /\ 0 < v.
Proof.
  intros FD DC EC G. destruct (DC nC EC) as (n & ED & L1). destruct (FD n ED) as (nF & EF & L2).
  exists n, ((n - 1) / (nF - nC)). unfold nd, vd, dispersion, delta_n. rewrite ED, EF, EC. cbn [obind].
  destruct (Req_EM_T (nF - nC) 0); [lra|]. rewrite fdiv_some by lra. cbn [obind]. split; [reflexivity|]. split; [reflexivity|]. split; [lra|]. apply Rdiv_lt_0_compat; lra.
Qed.
(** wavelengths in metres: the formulas get micrometres *)
Lemma falls_units f c v w : falls (fun w => f w c) (v / (1 / 1000000)) (w / (1 / 1000000)) -> falls (coefficients_index f false c) v w.
Proof.
  intros F b. unfold coefficients_index. destruct (f (w / (1 / 1000000)) c) as [n|] eqn:E; [|discriminate]. cbn [obind]. intros [= <-].
  destruct (F n E) as (a & EA & L). exists a. rewrite EA. cbn [obind]. auto.
Qed.

(** ** Lenses *)
(** reported focal length of surfaces in air from the block of the surfaces *)
Lemma reported_blocks axis l e0 x xs img y u rs f0 f : let es := e0 :: x :: xs ++ [img] in Forall (lens_surface l) es ->
  refractive_index es l 0 = 1 -> ptrace axis l es y u 1 = Some rs -> focal_length rs = Some (f0, f) ->
  let '(_, _, c, _) := blocks2 l 1 (x :: xs) in c <> 0 /\ 1 / f = - c.
Proof.
  intros es F N0 TR FL. assert (TR0 := TR). rewrite <- N0 in TR0. assert (NP : 0 < refractive_index es l 0) by (rewrite N0; lra).
  destruct (reported axis l e0 x xs img y u rs F TR0 NP) as (M & SM & _ & _ & _ & FF). specialize (FF _ _ FL).
  cbv zeta in SM, FF. fold es in SM, FF. rewrite N0 in SM, FF.
  assert (FX : Forall (lens_surface l) (x :: xs)).
  { inversion F as [|? ? _ F']; subst. inversion F' as [|? ? A B]; subst. apply Forall_app in B. constructor; [exact A|apply B]. }
  destruct (seq_block axis l _ FX 1 Rlt_0_1) as (M' & SM' & _ & BM). rewrite SM in SM'. injection SM' as <-. rewrite BM in FF.
  destruct (blocks2 l 1 (x :: xs)) as [[[a b] c] d]. destruct FF as (C & _ & _ & ->). split; [exact C|]. field. exact C.
Qed.
Lemma lens_power_rises c1 c2 t m n : 0 < c1 -> c2 < 0 -> 0 <= t -> t * (c1 * - c2) <= c1 - c2 -> 1 < m -> m < n ->
  0 < (m - 1) * (c1 - c2 + (m - 1) * t * c1 * c2 / m) < (n - 1) * (c1 - c2 + (n - 1) * t * c1 * c2 / n).
Proof.
  intros C1 C2 T TH M MN. set (s := c1 - c2) in *. set (q := t * (c1 * - c2)) in *.
  assert (Q : 0 <= q) by (unfold q; apply Rmult_le_pos; [auto|]; assert (0 < c1 * - c2) by (apply Rmult_lt_0_compat; lra); lra).
  assert (S : 0 < s) by (unfold s; lra).
  assert (E : forall k, 1 < k -> (k - 1) * (s + (k - 1) * t * c1 * c2 / k) = (k - 1) * (s - (1 - 1 / k) * q)) by (intros k K; unfold q; field; lra).
  rewrite !E by lra. clearbody s q. clear E.
  assert (I : forall k, 1 < k -> 0 < 1 / k < 1).
  { intros k K. split; [apply Rdiv_lt_0_compat; lra|]. apply (Rmult_lt_reg_r k); [lra|]. unfold Rdiv. rewrite Rmult_assoc, Rinv_l by lra. lra. }
  pose proof (I m M) as IM. split.
  - apply Rmult_lt_0_compat; [lra|]. nra.
  - assert (N : 1 < n) by lra. pose proof (I n N) as IN.
    assert (D : (n - 1) * (s - (1 - 1 / n) * q) - (m - 1) * (s - (1 - 1 / m) * q) = (n - m) * ((s - q) + q * (1 / n * (1 / m)))) by (field; lra).
    assert (0 < (n - m) * (s - q + q * (1 / n * (1 / m)))); [|lra].
    apply Rmult_lt_0_compat; [lra|]. assert (0 < 1 / n * (1 / m)) by (apply Rmult_lt_0_compat; lra).
    destruct (Rle_lt_or_eq_dec _ _ Q) as [P|<-]; [|lra]. assert (0 < q * (1 / n * (1 / m))) by (apply Rmult_lt_0_compat; auto). lra.
Qed.
(** a biconvex lens in air, not thicker than its two radii together (a ball is the limit), of a glass whose index falls
    between the wavelengths: it converges at both, and stronger at the shorter one *)
Theorem C94_lens axis v w e0 e1 e2 img y u y' u' rs rs' f0 f f0' f' m1 s1 m2 s2 index :
  let es := [e0; e1; e2; img] in Forall (lens_surface v) es -> Forall (lens_surface w) es ->
  refractive_index es v 0 = 1 -> refractive_index es w 0 = 1 -> e_kind e1 = Sph (Some m1) s1 -> e_kind e2 = Sph (Some m2) s2 ->
  m_index m2 v = 1 -> m_index m2 w = 1 -> index v = Some (m_index m1 v) -> index w = Some (m_index m1 w) -> falls index v w -> 1 < m_index m1 w ->
  0 < bend s1 -> bend s2 < 0 -> 0 <= p_distance (e_place e2) -> p_distance (e_place e2) <= / bend s1 + / - bend s2 ->
  ptrace axis v es y u 1 = Some rs -> focal_length rs = Some (f0, f) -> ptrace axis w es y' u' 1 = Some rs' -> focal_length rs' = Some (f0', f') ->
  0 < f < f'.
Proof.
  intros es FV FW NV NW K1 K2 MV MW IV IW FALL GW C1 C2 T TH TRV FLV TRW FLW.
  destruct (FALL _ IW) as (a & IV' & L). rewrite IV in IV'. injection IV' as <-. destruct L as (_ & L).
  set (t := p_distance (e_place e2)) in *. set (c1 := bend s1) in *. set (c2 := bend s2) in *.
  assert (TH' : t * (c1 * - c2) <= c1 - c2).
  { assert (P : 0 < c1 * - c2) by (apply Rmult_lt_0_compat; lra). apply (Rmult_le_compat_r (c1 * - c2)) in TH; [|lra].
    replace ((/ c1 + / - c2) * (c1 * - c2)) with (c1 - c2) in TH by (field; lra). exact TH. }
  assert (B : forall l, 0 < m_index m1 l -> m_index m2 l = 1 -> let '(_, _, c, _) := blocks2 l 1 [e1; e2] in
    - c = (m_index m1 l - 1) * (c1 - c2 + (m_index m1 l - 1) * t * c1 * c2 / m_index m1 l)).
  { intros l P M2. cbn [blocks2]. unfold surface_power, index_after. rewrite K1, K2, M2. fold t c1 c2. cbv beta iota. field. lra. }
  pose proof (reported_blocks axis v e0 e1 [e2] img y u rs f0 f FV NV TRV FLV) as RV.
  pose proof (reported_blocks axis w e0 e1 [e2] img y' u' rs' f0' f' FW NW TRW FLW) as RW.
  pose proof (B v ltac:(lra) MV) as BV. pose proof (B w ltac:(lra) MW) as BW. clear B.
  destruct (blocks2 v 1 [e1; e2]) as [[[? ?] cv] ?]. destruct (blocks2 w 1 [e1; e2]) as [[[? ?] cw] ?].
  destruct RV as (_ & RV). destruct RW as (_ & RW). rewrite BV in RV. rewrite BW in RW.
  destruct (lens_power_rises c1 c2 t (m_index m1 w) (m_index m1 v) C1 C2 T TH' GW L) as (P0 & P1). rewrite <- RV, <- RW in P1. rewrite <- RW in P0.
  assert (PF : 0 < f') by (apply Rnot_le_lt; intros Z; destruct Z as [Z|Z]; [assert (1 / f' < 0) by (unfold Rdiv; rewrite Rmult_1_l; apply Rinv_lt_0_compat; exact Z); lra|rewrite Z in P0; unfold Rdiv in P0; rewrite Rinv_0 in P0; lra]).
  assert (PG : 0 < f) by (apply Rnot_le_lt; intros Z; destruct Z as [Z|Z]; [assert (1 / f < 0) by (unfold Rdiv; rewrite Rmult_1_l; apply Rinv_lt_0_compat; exact Z); lra|rewrite Z in P1; unfold Rdiv in P1; rewrite Rinv_0 in P1; lra]).
  split; [exact PG|]. unfold Rdiv in P1. rewrite !Rmult_1_l in P1. apply Rnot_le_lt. intros Z. apply Rinv_le_contravar in Z; [lra|exact PF].
Qed.

(** ** Lenses in contact *)
(** the surfaces in order: medium behind and curvature *)
Definition stack (xs : list element) (g : list (material * R)) : Prop :=
  Forall2 (fun e mc => exists s, e_kind e = Sph (Some (fst mc)) s /\ bend s = snd mc) xs g.
(** every layer between two surfaces is a thin lens in air; [layers] sums a quantity of glass and curvatures over them *)
Fixpoint layers (q : material -> R -> R) (g : list (material * R)) : R :=
  match g with
  | (m, c) :: (((_, c') :: _) as g') => q m (c - c') + layers q g'
  | _ => 0
  end.
(** power of a thin lens in air *)
Definition thin_power (l : R) (m : material) (c : R) : R := (m_index m l - 1) * c.
(** its power at the d line divided by its Abbe number, zero for an infinite one *)
Definition thin_colour (m : material) (c : R) : R :=
  match vd (fun l => Some (m_index m l)) with Some (Some v) => thin_power lambda_d m c / v | _ => 0 end.
Definition last_index (l : R) (g : list (material * R)) : R := match rev g with (m, _) :: _ => m_index m l | [] => 1 end.

Lemma last_index_cons l a b g : last_index l (a :: b :: g) = last_index l (b :: g).
Proof. unfold last_index. cbn [rev]. destruct (rev g ++ [b]) as [|[m c] r] eqn:E; [destruct (rev g); discriminate|]. reflexivity. Qed.
Lemma contact_blocks l xs : Forall (fun e => p_distance (e_place e) = 0) xs -> forall g n, stack xs g -> g <> [] -> last_index l g = 1 -> 0 < n -> Forall (lens_surface l) xs ->
  blocks2 l n xs = (1, 0, - (layers (thin_power l) g + (1 - n) * snd (hd (Material (fun _ => 1) false false, 0) g)), 1).
Proof.
  induction 1 as [|x xs D _ IH]; intros g n ST NE LI N F; inversion ST as [|? [m c] ? g' (s & K & BS) ST']; subst; [contradiction|].
  inversion F as [|? ? F0 F']; subst. cbn [fst snd hd] in *. cbn [blocks2]. rewrite D. unfold Rdiv. rewrite Rmult_0_l.
  assert (P : surface_power l n x = (m_index m l - n) * c) by (unfold surface_power; rewrite K, BS; reflexivity).
  assert (IA : index_after x n l = m_index m l) by (unfold index_after; rewrite K; reflexivity).
  rewrite P, IA. destruct g' as [|[m' c'] g'].
  - inversion ST'; subst. cbn [blocks2 layers]. unfold last_index in LI. cbn in LI. rewrite LI. apply quad_eq; ring.
  - rewrite last_index_cons in LI. rewrite (IH ((m', c') :: g')); [|exact ST'|discriminate|exact LI|rewrite <- IA; apply lens_index; auto|exact F'].
    cbn [hd snd]. change (layers (thin_power l) ((m, c) :: (m', c') :: g')) with (thin_power l m (c - c') + layers (thin_power l) ((m', c') :: g')).
    set (L := layers (thin_power l) ((m', c') :: g')). clearbody L. unfold thin_power. apply quad_eq; ring.
Qed.
(** all surfaces behind the first at distance zero: the reported power is the sum over the lenses *)
Theorem C94_thin axis l e0 x xs img y u rs f0 f g : let es := e0 :: x :: xs ++ [img] in Forall (lens_surface l) es ->
  refractive_index es l 0 = 1 -> Forall (fun e => p_distance (e_place e) = 0) xs -> stack (x :: xs) g -> last_index l g = 1 ->
  ptrace axis l es y u 1 = Some rs -> focal_length rs = Some (f0, f) -> 1 / f = layers (thin_power l) g.
Proof.
  intros es F N0 D ST LI TR FL. pose proof (reported_blocks axis l e0 x xs img y u rs f0 f F N0 TR FL) as R.
  assert (FX : Forall (lens_surface l) (x :: xs)).
  { inversion F as [|? ? _ F']; subst. inversion F' as [|? ? A B]; subst. apply Forall_app in B. constructor; [exact A|apply B]. }
  inversion FX as [|? ? FX0 FXS]; subst. inversion ST as [|? [m c] ? g' (s & K & BS) ST']; subst. cbn [fst snd] in *. cbn [blocks2] in R.
  assert (P : surface_power l 1 x = (m_index m l - 1) * c) by (unfold surface_power; rewrite K, BS; reflexivity).
  assert (IA : index_after x 1 l = m_index m l) by (unfold index_after; rewrite K; reflexivity).
  assert (MP : 0 < m_index m l) by (rewrite <- IA; apply lens_index; [exact FX0|lra]).
  rewrite P, IA in R. destruct g' as [|[m' c'] g'].
  - inversion ST'; subst. cbn [blocks2] in R. destruct R as (_ & ->). unfold last_index in LI. cbn in LI. rewrite LI. cbn [layers]. ring.
  - rewrite last_index_cons in LI. rewrite (contact_blocks l xs D ((m', c') :: g') _ ST' ltac:(discriminate) LI MP FXS) in R. cbn [hd snd] in R. destruct R as (_ & ->).
    change (layers (thin_power l) ((m, c) :: (m', c') :: g')) with (thin_power l m (c - c') + layers (thin_power l) ((m', c') :: g')).
    set (L := layers (thin_power l) ((m', c') :: g')). clearbody L. unfold thin_power. ring.
Qed.
Lemma layers_colour g : Forall (fun mc => vd (fun l => Some (m_index (fst mc) l)) <> Some (Some 0)) g ->
  layers (thin_power lambda_F) g - layers (thin_power lambda_C) g = layers thin_colour g.
Proof.
  assert (ONE : forall m c, vd (fun l => Some (m_index m l)) <> Some (Some 0) -> thin_power lambda_F m c - thin_power lambda_C m c = thin_colour m c).
  { intros m c V. unfold thin_colour, thin_power, vd, dispersion, delta_n in *. cbn [obind] in *.
    destruct (Req_EM_T (m_index m lambda_F - m_index m lambda_C) 0) as [Z|Z].
    - replace (m_index m lambda_F) with (m_index m lambda_C) by lra. ring.
    - rewrite fdiv_some in * by exact Z. cbn [obind] in *. assert (m_index m lambda_d - 1 <> 0).
      { intros H. apply V. rewrite H. unfold Rdiv. rewrite Rmult_0_l. reflexivity. } field. auto. }
  induction g as [|[m c] g IH]; intros F; [cbn; ring|]. inversion F as [|? ? V F']; subst. destruct g as [|[m' c'] g]; [cbn; ring|].
  specialize (IH F'). cbn [fst] in V. specialize (ONE m (c - c') V).
  change (layers (thin_power lambda_F) ((m, c) :: (m', c') :: g)) with (thin_power lambda_F m (c - c') + layers (thin_power lambda_F) ((m', c') :: g)).
  change (layers (thin_power lambda_C) ((m, c) :: (m', c') :: g)) with (thin_power lambda_C m (c - c') + layers (thin_power lambda_C) ((m', c') :: g)).
  change (layers thin_colour ((m, c) :: (m', c') :: g)) with (thin_colour m (c - c') + layers thin_colour ((m', c') :: g)). lra.
Qed.
(** any number of lenses in contact, cemented or not: the power changes between F and C by the sum of powers over Abbe
    numbers, and the focal lengths agree exactly if this sum is zero *)
Theorem C94_achromat axis e0 x xs img g yF uF rsF fF0 fF yC uC rsC fC0 fC : let es := e0 :: x :: xs ++ [img] in
  Forall (lens_surface lambda_F) es -> Forall (lens_surface lambda_C) es ->
  refractive_index es lambda_F 0 = 1 -> refractive_index es lambda_C 0 = 1 ->
  Forall (fun e => p_distance (e_place e) = 0) xs -> stack (x :: xs) g -> last_index lambda_F g = 1 -> last_index lambda_C g = 1 ->
  Forall (fun mc => vd (fun l => Some (m_index (fst mc) l)) <> Some (Some 0)) g ->
  ptrace axis lambda_F es yF uF 1 = Some rsF -> focal_length rsF = Some (fF0, fF) ->
  ptrace axis lambda_C es yC uC 1 = Some rsC -> focal_length rsC = Some (fC0, fC) ->
  1 / fF - 1 / fC = layers thin_colour g /\ (fF = fC <-> layers thin_colour g = 0).
Proof.
  intros es FF FC NF NC D ST LF LC V TRF FLF TRC FLC.
  pose proof (C94_thin axis lambda_F e0 x xs img yF uF rsF fF0 fF g FF NF D ST LF TRF FLF) as EF.
  pose proof (C94_thin axis lambda_C e0 x xs img yC uC rsC fC0 fC g FC NC D ST LC TRC FLC) as EC.
  pose proof (layers_colour g V) as Q. rewrite <- EF, <- EC in Q. split; [exact Q|]. rewrite <- Q.
  pose proof (reported_blocks axis lambda_F e0 x xs img yF uF rsF fF0 fF FF NF TRF FLF) as RF.
  pose proof (reported_blocks axis lambda_C e0 x xs img yC uC rsC fC0 fC FC NC TRC FLC) as RC.
  destruct (blocks2 lambda_F 1 (x :: xs)) as [[[? ?] cf] ?]. destruct (blocks2 lambda_C 1 (x :: xs)) as [[[? ?] cc] ?].
  destruct RF as (CF & RF). destruct RC as (CC & RC).
  assert (ZF : fF <> 0) by (intros Z; rewrite Z in RF; unfold Rdiv in RF; rewrite Rinv_0 in RF; lra).
  assert (ZC : fC <> 0) by (intros Z; rewrite Z in RC; unfold Rdiv in RC; rewrite Rinv_0 in RC; lra).
  split; [intros ->; ring|]. intros Z. unfold Rdiv in Z. rewrite !Rmult_1_l in Z. rewrite <- (Rinv_inv fF), <- (Rinv_inv fC). f_equal. lra.
Qed.

(** ** Examples *)
(** N-BK7: two ultraviolet poles and one in the infrared; its Abbe number is positive *)
Definition bk7 : list (R * R) :=
  [(103961212 / 100000000, 600069867 / 100000000000); (231792344 / 1000000000, 200179144 / 10000000000); (101046945 / 100000000, 103560653 / 1000000)].
Example C94_normal_example : clear_of_poles (48 / 100) (66 / 100) bk7 /\ bk7 <> [] /\
  let index := coefficients_index n_sellmeier_squared false (flat bk7) in
  falls index lambda_F lambda_d /\ falls index lambda_d lambda_C /\ (exists n, index lambda_C = Some n /\ 15 / 10 < n) /\
  exists n v, nd index = Some n /\ vd index = Some (Some v) /\ 1 < n /\ 0 < v.
Proof.
  assert (P : forall v w, 48 / 100 <= v -> v <= w -> w <= 66 / 100 -> clear_of_poles v w bk7).
  { intros v w V VW W. assert (23 / 100 < v ^ 2) by nra. assert (w ^ 2 < 1 / 2) by nra. unfold clear_of_poles, bk7. repeat constructor; cbn [fst snd]; lra. }
  assert (U : forall x, x / (1 / 1000000) = x * 1000000) by (intros; field).
  assert (F : falls (coefficients_index n_sellmeier_squared false (flat bk7)) lambda_F lambda_d).
  { apply falls_units. apply C94_normal; rewrite ?U; unfold lambda_F, lambda_d; try lra; [discriminate|]. apply P; lra. }
  assert (D : falls (coefficients_index n_sellmeier_squared false (flat bk7)) lambda_d lambda_C).
  { apply falls_units. apply C94_normal; rewrite ?U; unfold lambda_C, lambda_d; try lra; [discriminate|]. apply P; lra. }
  assert (E : exists n, coefficients_index n_sellmeier_squared false (flat bk7) lambda_C = Some n /\ 15 / 10 < n).
  { unfold coefficients_index, n_sellmeier_squared. rewrite pairs_flat. cbn [obind]. rewrite U. unfold lambda_C.
    replace ((65627 / 100000000000 * 1000000) ^ 2) with (4306903129 / 10000000000) by lra.
    unfold sellmeier_terms, bk7, osum. cbn [map fold_right fst snd]. rewrite !fdiv_some by lra. cbn [obind]. rewrite fsqrt_some by lra. cbn [obind].
    eexists. split; [reflexivity|]. rewrite <- (sqrt_square (15 / 10)) by lra. apply sqrt_lt_1; lra. }
  split; [apply P; lra|]. split; [discriminate|]. cbv zeta. split; [exact F|]. split; [exact D|]. split; [exact E|].
  destruct E as (n & E & G). apply (C94_abbe _ n F D E). lra.
Qed.
Example C94_ultraviolet_example : Forall (fun b => 0 < fst b /\ 0 < snd b < 1 ^ 2) (firstn 2 bk7).
Proof. unfold bk7. cbn [firstn]. repeat constructor; cbn [fst snd]; lra. Qed.

(** a crown of nd 3/2, vd 60 and a flint of nd 8/5, vd 30, and a cemented doublet of powers 2 and -1: achromatic *)
Definition abbe_glass (n v : R) : material := Material (fun l => n + (l - lambda_d) / (lambda_C - lambda_F) * (1 - n) / v) false true.
Lemma abbe_glass_vd n v : v <> 0 -> n <> 1 -> vd (fun l => Some (m_index (abbe_glass n v) l)) = Some (Some v).
Proof.
  intros V N. unfold vd, dispersion, delta_n, abbe_glass. cbn [m_index obind].
  assert (W : lambda_C - lambda_F <> 0) by (unfold lambda_C, lambda_F; lra).
  replace (n + (lambda_F - lambda_d) / (lambda_C - lambda_F) * (1 - n) / v - (n + (lambda_C - lambda_d) / (lambda_C - lambda_F) * (1 - n) / v)) with ((n - 1) / v) by (field; auto).
  destruct (Req_EM_T ((n - 1) / v) 0) as [Z|Z].
  - exfalso. apply N. assert (n - 1 = (n - 1) / v * v) by (field; auto). rewrite Z in H. lra.
  - rewrite fdiv_some by exact Z. cbn [obind]. do 2 f_equal. field. repeat split; auto; lra.
Qed.
Definition vac : material := Material (fun _ => 1) false false.
Definition achromat (p0 p1 : placement) : list element :=
  [El p1 None (Sph (Some vac) (Surf 0 0 None false)); El p1 (Some 1) (Sph (Some (abbe_glass (3/2) 60)) (Surf 2 0 None false));
   El p0 (Some 1) (Sph (Some (abbe_glass (8/5) 30)) (Surf (-2) 0 None false)); El p0 (Some 1) (Sph (Some vac) (Surf (-1/3) 0 None false));
   El p1 None (Sph None (Surf 0 0 None false))].
Example C94_achromat_example : exists p0 p1 rsF fF0 fF rsC fC0 fC, let es := achromat p0 p1 in
  let g := [(abbe_glass (3/2) 60, 2); (abbe_glass (8/5) 30, -2); (vac, -1/3)] in
  Forall (lens_surface lambda_F) es /\ Forall (lens_surface lambda_C) es /\
  Forall (fun e => p_distance (e_place e) = 0) (firstn 2 (skipn 2 es)) /\ stack (firstn 3 (skipn 1 es)) g /\
  Forall (fun mc => vd (fun l => Some (m_index (fst mc) l)) <> Some (Some 0)) g /\
  ptrace true lambda_F es (1, 1) (0, 1/9) 1 = Some rsF /\ focal_length rsF = Some (fF0, fF) /\
  ptrace true lambda_C es (1, 1) (0, 1/9) 1 = Some rsC /\ focal_length rsC = Some (fC0, fC) /\
  fF = fC /\ thin_power lambda_d (abbe_glass (3/2) 60) (2 - -2) = 2 /\ thin_power lambda_d (abbe_glass (8/5) 30) (-2 - -1/3) = -1.
Proof.
  destruct (centred_axis 0) as (p0 & _ & _ & D0 & _ & A0); [lra|]. destruct (centred_axis 1) as (p1 & _ & _ & D1 & _ & A1); [lra|].
  set (es := achromat p0 p1). set (g := [(abbe_glass (3/2) 60, 2); (abbe_glass (8/5) 30, -2); (vac, -1/3)]).
  assert (FS : forall l, l = lambda_F \/ l = lambda_C -> Forall (lens_surface l) es).
  { intros l L. unfold es, achromat. repeat apply Forall_cons; [..|apply Forall_nil]; apply plain_lens; auto; intros m' E; try discriminate; injection E as <-; cbn [m_mirror m_index abbe_glass vac]; (split; [reflexivity|]); try lra;
      destruct L as [-> | ->]; unfold lambda_d, lambda_C, lambda_F; lra. }
  pose proof (FS _ (or_introl eq_refl)) as FF. pose proof (FS _ (or_intror eq_refl)) as FC.
  assert (C : forall l, l = lambda_F \/ l = lambda_C -> let '(_, _, c, _) := blocks2 l 1 (firstn 3 (skipn 1 es)) in c <> 0).
  { intros l L. unfold es, achromat. cbn. rewrite ?D0, ?D1. unfold Rdiv. rewrite !Rmult_0_l. destruct L as [-> | ->]; unfold lambda_d, lambda_C, lambda_F; intros Z; lra. }
  destruct (available true lambda_F _ _ [_; _] _ (1, 1) (0, 1/9) FF eq_refl eq_refl) as (rsF & fF0 & fF & _ & _ & _ & _ & TRF & FLF & _); [cbn; lra|exact (C _ (or_introl eq_refl))|].
  destruct (available true lambda_C _ _ [_; _] _ (1, 1) (0, 1/9) FC eq_refl eq_refl) as (rsC & fC0 & fC & _ & _ & _ & _ & TRC & FLC & _); [cbn; lra|exact (C _ (or_intror eq_refl))|].
  assert (DD : Forall (fun e => p_distance (e_place e) = 0) (firstn 2 (skipn 2 es))) by (cbn; repeat constructor; exact D0).
  assert (ST : stack (firstn 3 (skipn 1 es)) g) by (unfold stack, g; cbn; repeat constructor; eexists; split; reflexivity).
  assert (VV : Forall (fun mc => vd (fun l => Some (m_index (fst mc) l)) <> Some (Some 0)) g).
  { unfold g. repeat apply Forall_cons; [..|apply Forall_nil]; cbn [fst].
    - rewrite abbe_glass_vd by lra. intros Z. injection Z as Z. lra.
    - rewrite abbe_glass_vd by lra. intros Z. injection Z as Z. lra.
    - unfold vd, dispersion, delta_n. cbn. destruct (Req_EM_T (1 - 1) 0); [discriminate|lra]. }
  assert (K : thin_power lambda_d (abbe_glass (3/2) 60) (2 - -2) = 2 /\ thin_power lambda_d (abbe_glass (8/5) 30) (-2 - -1/3) = -1).
  { unfold thin_power, abbe_glass. cbn [m_index]. assert (lambda_C - lambda_F <> 0) by (unfold lambda_C, lambda_F; lra). split; field; auto. }
  destruct (C94_achromat true _ _ [_; _] _ g (1, 1) (0, 1/9) rsF fF0 fF (1, 1) (0, 1/9) rsC fC0 fC FF FC eq_refl eq_refl DD ST eq_refl eq_refl VV TRF FLF TRC FLC) as (_ & Q).
  exists p0, p1, rsF, fF0, fF, rsC, fC0, fC. cbv zeta. fold es g. repeat (split; [assumption|]). split; [|exact K].
  apply Q. unfold g. cbn [layers]. unfold thin_colour. rewrite !abbe_glass_vd by lra. destruct K as [-> ->]. lra.
Qed.

(** a biconvex lens of the crown alone *)
Example C94_lens_example : exists p0 p1 rs f0 f rs' f0' f', let es := [El p1 None (Sph (Some vac) (Surf 0 0 None false)); El p1 (Some 1) (Sph (Some (abbe_glass (3/2) 60)) (Surf 2 0 None false));
   El p1 (Some 1) (Sph (Some vac) (Surf (-2) 0 None false)); El p0 None (Sph None (Surf 0 0 None false))] in
  Forall (lens_surface lambda_F) es /\ Forall (lens_surface lambda_C) es /\ p_distance p1 <= / 2 + / - -2 /\
  falls (abbe_index (AbbeMat (3/2) (Some 60) lambda_d lambda_C lambda_F)) lambda_F lambda_C /\
  ptrace true lambda_F es (1, 1) (0, 1/9) 1 = Some rs /\ focal_length rs = Some (f0, f) /\
  ptrace true lambda_C es (1, 1) (0, 1/9) 1 = Some rs' /\ focal_length rs' = Some (f0', f') /\ 0 < f < f'.
Proof.
  destruct (centred_axis 0) as (p0 & _ & _ & D0 & _ & A0); [lra|]. destruct (centred_axis 1) as (p1 & _ & _ & D1 & _ & A1); [lra|].
  set (es := [El p1 None (Sph (Some vac) (Surf 0 0 None false)); El p1 (Some 1) (Sph (Some (abbe_glass (3/2) 60)) (Surf 2 0 None false));
   El p1 (Some 1) (Sph (Some vac) (Surf (-2) 0 None false)); El p0 None (Sph None (Surf 0 0 None false))]).
  assert (FS : forall l, l = lambda_F \/ l = lambda_C -> Forall (lens_surface l) es).
  { intros l L. unfold es. repeat apply Forall_cons; [..|apply Forall_nil]; apply plain_lens; auto; intros m' E; try discriminate; injection E as <-; cbn [m_mirror m_index abbe_glass vac]; (split; [reflexivity|]); try lra;
      destruct L as [-> | ->]; unfold lambda_d, lambda_C, lambda_F; lra. }
  pose proof (FS _ (or_introl eq_refl)) as FF. pose proof (FS _ (or_intror eq_refl)) as FC.
  assert (C : forall l, l = lambda_F \/ l = lambda_C -> let '(_, _, c, _) := blocks2 l 1 (firstn 2 (skipn 1 es)) in c <> 0).
  { intros l L. unfold es. cbn. rewrite D1. set (n := 3 / 2 + (l - lambda_d) / (lambda_C - lambda_F) * (1 - 3 / 2) / 60).
    assert (N : 149 / 100 < n < 152 / 100) by (unfold n; destruct L as [-> | ->]; unfold lambda_d, lambda_C, lambda_F; lra). clearbody n.
    intros Z. apply (f_equal (Rmult n)) in Z. rewrite Rmult_0_r in Z. field_simplify in Z; nra. }
  destruct (available true lambda_F _ _ [_] _ (1, 1) (0, 1/9) FF eq_refl eq_refl) as (rs & f0 & f & _ & _ & _ & _ & TRF & FLF & _); [cbn; lra|exact (C _ (or_introl eq_refl))|].
  destruct (available true lambda_C _ _ [_] _ (1, 1) (0, 1/9) FC eq_refl eq_refl) as (rs' & f0' & f' & _ & _ & _ & _ & TRC & FLC & _); [cbn; lra|exact (C _ (or_intror eq_refl))|].
  set (index := abbe_index (AbbeMat (3/2) (Some 60) lambda_d lambda_C lambda_F)).
  assert (W : lambda_C - lambda_F <> 0) by (unfold lambda_C, lambda_F; lra).
  assert (I : forall l, index l = Some (m_index (abbe_glass (3/2) 60) l)).
  { intros l. unfold index, abbe_index. cbn [am_n am_v am_ref am_long am_short]. rewrite fdiv_some by exact W. cbn [obind]. rewrite fdiv_some by lra. reflexivity. }
  assert (FA : falls index lambda_F lambda_C).
  { intros b. rewrite !I. intros [= <-]. eexists. split; [reflexivity|]. unfold abbe_glass. cbn [m_index]. unfold lambda_d, lambda_C, lambda_F. lra. }
  assert (TH : p_distance p1 <= / 2 + / - -2) by (rewrite D1; replace (- -2) with 2 by ring; lra).
  exists p0, p1, rs, f0, f, rs', f0', f'. cbv zeta. fold es. repeat (split; [assumption|]).
  refine (C94_lens true lambda_F lambda_C _ _ _ _ (1, 1) (0, 1/9) (1, 1) (0, 1/9) rs rs' f0 f f0' f' _ _ _ _ index FF FC eq_refl eq_refl eq_refl eq_refl eq_refl eq_refl (I _) (I _) FA _ _ _ _ TH TRF FLF TRC FLC); cbn; rewrite ?D1; try lra.
  unfold lambda_d, lambda_C, lambda_F. lra.
Qed.
