(** Property C69: the light bundle through a system can be reshaped but not compressed: the antisymmetric product of neighbouring
    rays (Lagrange's bracket) and the phase space volume (etendue) are conserved, and sharp imaging obeys Abbe's sine condition. *)
From Coq Require Import Reals ZArith List Lra Lia Psatz.
From Verif Require Import Base Vec RotModel RotProofs PlacementModel PlacementProofs ElementModel ElementProofs TraceProofs
  PropsElement PropsTrace OpdModel PropsOpd PolyChain FirstOrder Hamilton Smooth PropsHamilton Bracket.
Import ListNotations.
Open Scope R_scope.

(** * specification *)
(** position and direction of two neighbours of a ray, relative to the ray and per unit of the parameter: Lagrange's bracket *)
Definition lagrange (dy du ey eu : vec) : R :=
  (vx dy * vx eu + vy dy * vy eu + vz dy * vz eu) - (vx ey * vx du + vy ey * vy du + vz ey * vz du).
(** determinants *)
Definition det3 (a1 a2 a3 b1 b2 b3 c1 c2 c3 : R) : R := a1 * (b2 * c3 - b3 * c2) - a2 * (b1 * c3 - b3 * c1) + a3 * (b1 * c2 - b2 * c1).
(** phase space volume spanned by four neighbours [j] of a ray in a plane: transverse positions and index times transverse direction *)
Definition volume (n : R) (dy du : nat -> vec) : R :=
  let X j := vx (dy j) in let Y j := vy (dy j) in let P j := n * vx (du j) in let Q j := n * vy (du j) in
  let minor i j k := det3 (Y i) (P i) (Q i) (Y j) (P j) (Q j) (Y k) (P k) (Q k) in
  X 0%nat * minor 1%nat 2%nat 3%nat - X 1%nat * minor 0%nat 2%nat 3%nat + X 2%nat * minor 0%nat 1%nat 3%nat - X 3%nat * minor 0%nat 1%nat 2%nat.

Lemma lagrange_bracket a b c d : bracket a b c d = lagrange a b c d.
Proof. unfold bracket, lagrange, dot. ring. Qed.

Section Bracket.
Variable newton : (R -> option R) -> (R -> option R) -> option R -> option R.
Notation trace := (geo_trace newton).

(** * theorems *)
(** for all pairs of families of rays around one ray, aspheres included *)
Theorem C69_lagrange es Y U Z W n l c (yy uu dyy duu eyy euu : nat -> vec) k : physical l es -> 0 < n ->
  near (fun h => dot (U h) (U h) = 1) -> near (fun h => dot (W h) (W h) = 1) -> (k < length es)%nat ->
  let ray h := trace es (Y h) (U h) n l c in let yar h := trace es (Z h) (W h) n l c in
  (forall i, (i <= k)%nat -> ovlin (fun h => position_at i (ray h)) (yy i) (dyy i) /\ ovlin (fun h => direction_at i (ray h)) (uu i) (duu i)) ->
  (forall i, (i <= k)%nat -> ovlin (fun h => position_at i (yar h)) (yy i) (eyy i) /\ ovlin (fun h => direction_at i (yar h)) (uu i) (euu i)) ->
  (forall i e m s, (i < k)%nat -> nth_error es (S i) = Some e -> e_kind e = Sph (Some m) s ->
     near (fun h => (exists p, position_at (S i) (ray h) = Some p /\ surface_sag s p = Some 0) /\ (exists p, position_at (S i) (yar h) = Some p /\ surface_sag s p = Some 0))) ->
  exists nk, (forall h s, nth_error (ray h) k = Some s -> st_n s = nk) /\
    nk * lagrange (dyy k) (duu k) (eyy k) (euu k) = n * lagrange (dyy 0%nat) (duu 0%nat) (eyy 0%nat) (euu 0%nat).
Proof.
  intros G N UN WN LK ray yar. revert LK. induction k as [|k IH]; intros LK FAM FAM' ON.
  - destruct es as [|e0 es]; [cbn in LK; lia|]. exists n. split; [intros h s E; unfold ray in E; cbn in E; injection E as <-; reflexivity|reflexivity].
  - destruct IH as (n1 & N1 & LP); [lia|intros; apply FAM; lia|intros; apply FAM'; lia|intros; eapply ON; eauto; lia|].
    destruct (nth_error es k) as [e|] eqn:E; [|apply nth_error_None in E; lia]. destruct (nth_error es (S k)) as [e'|] eqn:E'; [|apply nth_error_None in E'; lia].
    destruct (FAM k ltac:(lia)) as (A & B). destruct (FAM (S k) ltac:(lia)) as (A' & B'). destruct (FAM' k ltac:(lia)) as (C & D). destruct (FAM' (S k) ltac:(lia)) as (C' & D').
    assert (EX : exists s, nth_error (ray 0) (S k) = Some s).
    { destruct A' as (FY & _ & NY). pose proof (near_0 _ NY) as Q. cbn beta in Q. unfold position_at in Q. destruct (nth_error (ray 0) (S k)) as [s|]; [eauto|discriminate]. }
    destruct EX as (s0 & S0). exists (st_n s0).
    assert (N2 : forall h s, nth_error (ray h) (S k) = Some s -> st_n s = st_n s0) by (intros h s SH; apply (trace_index newton es (Y h) (U h) (Y 0) (U 0) n l c (S k)); auto).
    split; [exact N2|]. rewrite <- LP, <- !lagrange_bracket.
    apply (bracket_step newton es Y U Z W n l c k _ _ _ _ _ _ _ _ _ _ _ _ e e' G N UN WN E E' A B A' B' C D C' D'); auto.
    + intros m sf K. eapply near_impl; [|exact (ON k e' m sf ltac:(lia) E' K)]. intros h (Q & _). exact Q.
    + intros m sf K. eapply near_impl; [|exact (ON k e' m sf ltac:(lia) E' K)]. intros h (_ & Q). exact Q.
Qed.

Lemma ovlin_at0 F a b : ovlin F a b -> F 0 = Some a.
Proof. intros (f & L & M). rewrite (near_0 _ M). rewrite (vlin_at0 _ _ _ L). reflexivity. Qed.
(** for closed form surfaces the only assumption is that one ray is regular *)
Theorem C69_regular es Y U Z W y dy ey u du eu n l c k : physical l es -> 0 < n -> vlin Y y dy -> vlin U u du -> vlin Z y ey -> vlin W u eu ->
  near (fun h => dot (U h) (U h) = 1) -> near (fun h => dot (W h) (W h) = 1) ->
  let ray h := trace es (Y h) (U h) n l c in let yar h := trace es (Z h) (W h) n l c in
  regular es c k (trace es y u n l c) ->
  exists p v dp dv ep ev nk, ovlin (fun h => position_at k (ray h)) p dp /\ ovlin (fun h => direction_at k (ray h)) v dv /\
    ovlin (fun h => position_at k (yar h)) p ep /\ ovlin (fun h => direction_at k (yar h)) v ev /\
    (forall h s, nth_error (ray h) k = Some s -> st_n s = nk) /\ nk * lagrange dp dv ep ev = n * lagrange dy du ey eu.
Proof.
  intros G N LY LU LZ LW UN WN ray yar RG.
  pose proof (trace_smooth newton es Y U y dy u du n l c G N LY LU UN k RG) as S1. pose proof (trace_smooth newton es Z W y ey u eu n l c G N LZ LW WN k RG) as S2. cbv zeta in S1, S2. fold ray in S1. fold yar in S2.
  assert (R1 : ray 0 = trace es y u n l c) by (unfold ray; rewrite (vlin_at0 _ _ _ LY), (vlin_at0 _ _ _ LU); reflexivity).
  assert (R2 : yar 0 = trace es y u n l c) by (unfold yar; rewrite (vlin_at0 _ _ _ LZ), (vlin_at0 _ _ _ LW); reflexivity).
  assert (CH : forall j, (j <= k)%nat -> exists p v dp dv ep ev nk, ovlin (fun h => position_at j (ray h)) p dp /\ ovlin (fun h => direction_at j (ray h)) v dv /\
    ovlin (fun h => position_at j (yar h)) p ep /\ ovlin (fun h => direction_at j (yar h)) v ev /\
    (forall h s, nth_error (ray h) j = Some s -> st_n s = nk) /\ nk * lagrange dp dv ep ev = n * lagrange dy du ey eu).
  { induction j as [|j IH]; intros JK.
    - destruct (RG 0%nat ltac:(lia)) as (e & s & _ & _ & E & S & _). destruct es as [|e0 es]; [discriminate|]. exists y, u, dy, du, ey, eu, n. unfold ray, yar, position_at, direction_at. cbn [geo_trace nth_error obind st_y st_u].
      repeat (split; [apply ovlin_some; assumption|]). split; [intros h s1 Q; injection Q as <-; reflexivity|reflexivity].
    - destruct (IH ltac:(lia)) as (p & v & dp & dv & ep & ev & n1 & A & B & C & D & N1 & LP).
      destruct (S1 (Datatypes.S j) JK) as (p' & dp' & v' & dv' & A' & B' & _ & ON). destruct (S2 (Datatypes.S j) JK) as (p2 & ep' & v2 & ev' & C' & D' & _ & ON').
      assert (p2 = p') by (apply ovlin_at0 in A', C'; cbn beta in A', C'; change (position_at (S j) (ray 0) = Some p') in A'; change (position_at (S j) (yar 0) = Some p2) in C'; rewrite R1 in A'; rewrite R2 in C'; congruence).
      assert (v2 = v') by (apply ovlin_at0 in B', D'; cbn beta in B', D'; change (direction_at (S j) (ray 0) = Some v') in B'; change (direction_at (S j) (yar 0) = Some v2) in D'; rewrite R1 in B'; rewrite R2 in D'; congruence).
      subst p2 v2. destruct (RG j ltac:(lia)) as (e & s & _ & _ & E & _). destruct (RG (Datatypes.S j) JK) as (e' & s' & _ & _ & E' & S' & _).
      assert (N2 : forall h s, nth_error (ray h) (Datatypes.S j) = Some s -> st_n s = st_n s').
      { intros h s1 Q. apply (trace_index newton es (Y h) (U h) y u n l c (Datatypes.S j)); auto. }
      exists p', v', dp', dv', ep', ev', (st_n s'). repeat (split; [assumption|]). rewrite <- LP, <- !lagrange_bracket.
      apply (bracket_step newton es Y U Z W n l c j _ _ _ _ _ _ _ _ _ _ _ _ e e' G N UN WN E E' A B A' B' C D C' D'); auto.
      + intros m sf K. eapply ON; eauto; lia.
      + intros m sf K. eapply ON'; eauto; lia. }
  apply CH. lia.
Qed.
Lemma regular_pair es Y U Z W y dy ey u du eu n l c k p v p' v' dp dv ep ev nk : physical l es -> 0 < n -> vlin Y y dy -> vlin U u du -> vlin Z y ey -> vlin W u eu ->
  near (fun h => dot (U h) (U h) = 1) -> near (fun h => dot (W h) (W h) = 1) -> regular es c k (trace es y u n l c) ->
  ovlin (fun h => position_at k (trace es (Y h) (U h) n l c)) p dp -> ovlin (fun h => direction_at k (trace es (Y h) (U h) n l c)) v dv ->
  ovlin (fun h => position_at k (trace es (Z h) (W h) n l c)) p' ep -> ovlin (fun h => direction_at k (trace es (Z h) (W h) n l c)) v' ev ->
  (forall s, nth_error (trace es y u n l c) k = Some s -> st_n s = nk) -> nk * lagrange dp dv ep ev = n * lagrange dy du ey eu.
Proof.
  intros G N LY LU LZ LW UN WN RG A B C D NK.
  destruct (C69_regular es Y U Z W y dy ey u du eu n l c k G N LY LU LZ LW UN WN RG) as (p1 & v1 & dp1 & dv1 & ep1 & ev1 & n1 & A1 & B1 & C1 & D1 & N1 & E).
  destruct (ovlin_unique _ _ _ _ _ A A1) as (_ & ->). destruct (ovlin_unique _ _ _ _ _ B B1) as (_ & ->). destruct (ovlin_unique _ _ _ _ _ C C1) as (_ & ->). destruct (ovlin_unique _ _ _ _ _ D D1) as (_ & ->).
  destruct (RG k ltac:(lia)) as (e & s & _ & _ & _ & S & _). rewrite <- (NK s S). rewrite <- E. f_equal. apply (N1 0 s). rewrite (vlin_at0 _ _ _ LY), (vlin_at0 _ _ _ LU). exact S.
Qed.

(** four independent neighbours, from the launch plane to a plane: the phase space volume is conserved *)
Theorem C69_etendue es (Y U : nat -> R -> vec) y dy u du n l c k e : physical l es -> 0 < n ->
  (forall j, (j < 4)%nat -> vlin (Y j) y (dy j) /\ vlin (U j) u (du j) /\ near (fun h => dot (U j h) (U j h) = 1) /\ vz (dy j) = 0) ->
  regular es c k (trace es y u n l c) -> nth_error es k = Some e -> e_kind e = Plain -> (0 < k)%nat ->
  exists p v dp dv nk, (forall j, (j < 4)%nat -> ovlin (fun h => position_at k (trace es (Y j h) (U j h) n l c)) p (dp j) /\ ovlin (fun h => direction_at k (trace es (Y j h) (U j h) n l c)) v (dv j)) /\
    (forall s, nth_error (trace es y u n l c) k = Some s -> st_n s = nk) /\ volume nk dp dv = volume n dy du.
Proof.
  intros G N F RG E K KP. destruct k as [|k]; [lia|].
  destruct (RG k ltac:(lia)) as (e1 & s1 & _ & _ & E1 & S1 & _). destruct (RG (S k) ltac:(lia)) as (e2 & s2 & p2 & v2 & E2 & S2 & P2 & V2 & _).
  rewrite E in E2. injection E2 as <-.
  assert (X : forall j, (j < 4)%nat -> exists dp dv, ovlin (fun h => position_at (S k) (trace es (Y j h) (U j h) n l c)) p2 dp /\ ovlin (fun h => direction_at (S k) (trace es (Y j h) (U j h) n l c)) v2 dv /\ vz dp = 0).
  { intros j J. destruct (F j J) as (LY & LU & UN & _).
    pose proof (trace_smooth newton es _ _ _ _ _ _ n l c G N LY LU UN (S k) RG) as SM. cbv zeta in SM. destruct (SM (S k) ltac:(lia)) as (p & dp & v & dv & A & B & _). destruct (SM k ltac:(lia)) as (q & dq & _ & _ & A1 & _).
    assert (R0 : trace es (Y j 0) (U j 0) n l c = trace es y u n l c) by (rewrite (vlin_at0 _ _ _ LY), (vlin_at0 _ _ _ LU); reflexivity).
    assert (p = p2). { pose proof (ovlin_at0 _ _ _ A) as Q. cbn beta in Q. rewrite R0 in Q. unfold position_at in Q. rewrite S2 in Q. cbn [obind] in Q. congruence. }
    assert (v = v2). { pose proof (ovlin_at0 _ _ _ B) as Q. cbn beta in Q. rewrite R0 in Q. unfold direction_at in Q. rewrite S2 in Q. cbn [obind] in Q. congruence. }
    subst p v. exists dp, dv. split; [exact A|]. split; [exact B|]. destruct A as (f & L & M). destruct A1 as (f1 & _ & M1).
    assert (Z : near (fun h => vz (f h) = 0)).
    { eapply near_impl; [|exact (near_and _ _ UN (near_and _ _ M M1))]. intros h (UH & MH & MH1). cbn beta in *. unfold position_at in MH, MH1.
      destruct (nth_error (trace es (Y j h) (U j h) n l c) (S k)) as [s|] eqn:Q; cbn [obind] in MH; [|discriminate]. destruct (nth_error (trace es (Y j h) (U j h) n l c) k) as [s'|] eqn:Q'; cbn [obind] in MH1; [|discriminate].
      pose proof (C16_on_surface newton es _ _ n l c k e1 e s' s G N UH E1 E Q' Q) as O. unfold analytic, on_surface in O. rewrite K in O. apply (O I _ MH). }
    destruct L as (_ & _ & LZ). destruct (lin_unique _ _ _ _ _ (lin_near _ (fun _ => 0) _ _ Z LZ) (lin_const 0)) as (_ & Q). exact Q. }
  destruct (X 0%nat ltac:(lia)) as (d0 & w0 & A0 & B0 & Z0). destruct (X 1%nat ltac:(lia)) as (d1 & w1 & A1 & B1 & Z1). destruct (X 2%nat ltac:(lia)) as (d2 & w2 & A2 & B2 & Z2). destruct (X 3%nat ltac:(lia)) as (d3 & w3 & A3 & B3 & Z3).
  exists p2, v2, (fun j => match j with 0 => d0 | 1 => d1 | 2 => d2 | _ => d3 end)%nat, (fun j => match j with 0 => w0 | 1 => w1 | 2 => w2 | _ => w3 end)%nat, (st_n s2). split.
  { intros j J. destruct j as [|[|[|[|j]]]]; [auto|auto|auto|auto|lia]. }
  assert (NK : forall s, nth_error (trace es y u n l c) (S k) = Some s -> st_n s = st_n s2) by (intros s Q; rewrite S2 in Q; injection Q as <-; reflexivity).
  split; [exact NK|].
  destruct (F 0%nat ltac:(lia)) as (LY0 & LU0 & UN0 & ZZ0). destruct (F 1%nat ltac:(lia)) as (LY1 & LU1 & UN1 & ZZ1). destruct (F 2%nat ltac:(lia)) as (LY2 & LU2 & UN2 & ZZ2). destruct (F 3%nat ltac:(lia)) as (LY3 & LU3 & UN3 & ZZ3).
  pose proof (regular_pair _ _ _ _ _ _ _ _ _ _ _ _ _ _ _ _ _ _ _ _ _ _ _ _ G N LY0 LU0 LY1 LU1 UN0 UN1 RG A0 B0 A1 B1 NK) as P01.
  pose proof (regular_pair _ _ _ _ _ _ _ _ _ _ _ _ _ _ _ _ _ _ _ _ _ _ _ _ G N LY0 LU0 LY2 LU2 UN0 UN2 RG A0 B0 A2 B2 NK) as P02.
  pose proof (regular_pair _ _ _ _ _ _ _ _ _ _ _ _ _ _ _ _ _ _ _ _ _ _ _ _ G N LY0 LU0 LY3 LU3 UN0 UN3 RG A0 B0 A3 B3 NK) as P03.
  pose proof (regular_pair _ _ _ _ _ _ _ _ _ _ _ _ _ _ _ _ _ _ _ _ _ _ _ _ G N LY1 LU1 LY2 LU2 UN1 UN2 RG A1 B1 A2 B2 NK) as P12.
  pose proof (regular_pair _ _ _ _ _ _ _ _ _ _ _ _ _ _ _ _ _ _ _ _ _ _ _ _ G N LY1 LU1 LY3 LU3 UN1 UN3 RG A1 B1 A3 B3 NK) as P13.
  pose proof (regular_pair _ _ _ _ _ _ _ _ _ _ _ _ _ _ _ _ _ _ _ _ _ _ _ _ G N LY2 LU2 LY3 LU3 UN2 UN3 RG A2 B2 A3 B3 NK) as P23.
  assert (PF : forall m (a0 b0 a1 b1 a2 b2 a3 b3 : vec), vz a0 = 0 -> vz a1 = 0 -> vz a2 = 0 -> vz a3 = 0 ->
    volume m (fun j => match j with 0 => a0 | 1 => a1 | 2 => a2 | _ => a3 end)%nat (fun j => match j with 0 => b0 | 1 => b1 | 2 => b2 | _ => b3 end)%nat =
      - ((m * lagrange a0 b0 a1 b1) * (m * lagrange a2 b2 a3 b3) - (m * lagrange a0 b0 a2 b2) * (m * lagrange a1 b1 a3 b3) + (m * lagrange a0 b0 a3 b3) * (m * lagrange a1 b1 a2 b2))).
  { intros m a0 b0 a1 b1 a2 b2 a3 b3 Q0 Q1 Q2 Q3. unfold volume, det3, lagrange. rewrite Q0, Q1, Q2, Q3. ring. }
  rewrite PF by assumption. rewrite P01, P02, P03, P12, P13, P23. rewrite <- PF by assumption. reflexivity.
Qed.

(** sharp imaging of a point and, to first order, of its neighbour ties the directions on both sides together *)
Theorem C69_sine_condition es P a b Q U n l c k lo hi : physical l es -> 0 < n ->
  (forall h, lo < h < hi -> dot (U h) (U h) = 1 /\ (exists du, vlin (fun t => U (h + t)) (U h) du) /\ regular es c k (trace es P (U h) n l c) /\
     position_at k (trace es P (U h) n l c) = Some Q /\
     exists q, ovlin (fun t => position_at k (trace es (vadd3 P (vmul3 t a)) (U h) n l c)) q b) ->
  exists nk, forall h h' v v', lo < h < hi -> lo < h' < hi ->
    direction_at k (trace es P (U h) n l c) = Some v -> direction_at k (trace es P (U h') n l c) = Some v' ->
    (forall s, nth_error (trace es P (U h) n l c) k = Some s -> st_n s = nk) /\
    n * dot a (U h) - nk * dot b v = n * dot a (U h') - nk * dot b v'.
Proof.
  intros G N H. destruct (Rlt_dec lo hi) as [LH|LH]; [|exists 0; intros; lra].
  destruct (H ((lo + hi) / 2) ltac:(lra)) as (_ & _ & RG0 & _). destruct (RG0 k ltac:(lia)) as (_ & s0 & _ & _ & _ & S0 & _).
  assert (NK : forall h s, nth_error (trace es P (U h) n l c) k = Some s -> st_n s = st_n s0) by (intros h s Q1; apply (trace_index newton es P (U h) P (U ((lo + hi) / 2)) n l c k); auto).
  set (V h := match direction_at k (trace es P (U h) n l c) with Some v => v | None => v0 end).
  set (g h := n * dot a (U h) - st_n s0 * dot b (V h)).
  assert (D : forall h, lo < h < hi -> derivable_pt_lim g h 0).
  { intros h HH. destruct (H h HH) as (U1 & (du & LU) & RG & PQ & q & NB).
    assert (INT : near (fun t => lo < h + t < hi)).
    { exists (Rmin (h - lo) (hi - h)). split; [apply Rmin_pos; lra|]. intros t T. pose proof (Rmin_l (h - lo) (hi - h)). pose proof (Rmin_r (h - lo) (hi - h)). split; [|]; destruct (Rcase_abs t) as [T1|T1]; [rewrite Rabs_left in T by auto|rewrite Rabs_right in T by auto|rewrite Rabs_left in T by auto|rewrite Rabs_right in T by auto]; lra. }
    assert (UN : near (fun t => dot (U (h + t)) (U (h + t)) = 1)) by (eapply near_impl; [|exact INT]; intros t T; apply H; exact T).
    assert (LP : vlin (fun _ : R => P) P v0) by apply vlin_const.
    assert (LA : vlin (fun t => vadd3 P (vmul3 t a)) P a).
    { pose proof (vlin_add _ _ _ _ _ _ (vlin_const P) (vlin_scale _ _ _ _ _ _ lin_id (vlin_const a))) as X.
      replace (vadd3 v0 (vadd3 (vmul3 1 a) (vmul3 0 v0))) with a in X by vec_ring. replace (vadd3 P (vmul3 0 a)) with P in X by vec_ring. exact X. }
    assert (LC : vlin (fun _ : R => U h) (U h) v0) by apply vlin_const.
    assert (UC : near (fun _ : R => dot (U h) (U h) = 1)) by (apply near_true; auto).
    destruct (C69_regular es _ _ _ _ _ _ _ _ _ _ n l c k G N LA LC LP LU UC UN RG) as (p & v & dp & dv & ep & ev & nk & A & B & C & DD & NN & E). cbv zeta in A, B, C, DD, NN.
    destruct (ovlin_unique _ _ _ _ _ A NB) as (_ & ->).
    assert (E0 : ep = v0).
    { assert (X : ovlin (fun t => position_at k (trace es P (U (h + t)) n l c)) Q v0).
      { exists (fun _ => Q). split; [apply vlin_const|]. eapply near_impl; [|exact INT]. intros t T. apply H. exact T. }
      destruct (ovlin_unique _ _ _ _ _ C X) as (_ & ->). reflexivity. }
    subst ep. assert (nk = st_n s0).
    { destruct (RG k ltac:(lia)) as (_ & s & _ & _ & _ & S & _). rewrite <- (NK h s S). symmetry. apply (NN 0 s). rewrite (vlin_at0 _ _ _ LA). exact S. }
    subst nk. destruct DD as (FV & LV & MV).
    assert (LG : lin (fun t => g (h + t)) (n * dot a (U h) - st_n s0 * dot b v) 0).
    { assert (LX : lin (fun t => n * dot a (U (h + t)) - st_n s0 * dot b (FV t)) (n * dot a (U h) - st_n s0 * dot b v) 0).
      { pose proof (vlin_dot _ _ _ _ _ _ (vlin_const a) LU) as X1. pose proof (vlin_dot _ _ _ _ _ _ (vlin_const b) LV) as X2.
        eapply lin_eq; [apply lin_minus; [apply lin_mult; [apply lin_const|exact X1]|apply lin_mult; [apply lin_const|exact X2]]|reflexivity|].
        unfold lagrange, v0 in E. cbn [vx vy vz] in E. unfold dot, v0. cbn [vx vy vz]. lra. }
      eapply lin_near; [|exact LX]. eapply near_impl; [|exact MV]. intros t T. cbn beta in T. unfold g, V. rewrite T. reflexivity. }
    destruct LG as (_ & DG). intros eps EP. destruct (DG eps EP) as (del & X). exists del. intros t T1 T2. specialize (X t T1 T2). cbv beta in X. rewrite Rplus_0_l, Rplus_0_r in X. exact X. }
  assert (CONST : forall h h', lo < h < hi -> lo < h' < hi -> h < h' -> g h' = g h).
  { intros h h' HH HH' L. destruct (MVT_cor2 g (fun _ => 0) h h' L) as (x & E & _); [intros x X; apply D; lra|]. lra. }
  exists (st_n s0). intros h h' v v' HH HH' VV VV'. split; [apply NK|].
  assert (EV : V h = v) by (unfold V; rewrite VV; reflexivity). assert (EV' : V h' = v') by (unfold V; rewrite VV'; reflexivity).
  rewrite <- EV, <- EV'. change (g h = g h').
  destruct (Rtotal_order h h') as [L|[->|L]]; [symmetry; apply CONST; auto|reflexivity|apply CONST; auto].
Qed.
End Bracket.

(** ** light from the centre of a concave mirror returns to the centre: sharp imaging at all apertures, magnification -1 *)
Definition mirror5 : element := El (e_place (flat 5)) None (Sph (Some (Material (fun _ => 1) true false)) (Surf (-1/5) 0 None false)).
Definition back5 : element := El (Placement 5 (V 0 0 (-1)) (V 0 0 (- (5))) v0 false true (Some half_turn) (Some half_turn)) None Plain.
Definition mirror_box : list element := [flat 0; mirror5; back5].
Definition flip (v : vec) : vec := V (vx v) (- vy v) (- vz v).
Definition returning (u : vec) : list step :=
  [Step (Some v0) (Some u) 1 (Some u) (Some 0); Step (Some (V (5 * vx u) (5 * vy u) (5 * vz u - 5))) (Some (vneg u)) 1 (Some u) (Some 5);
   Step (Some v0) (Some (flip (vneg u))) 1 (Some (flip (vneg u))) (Some 5)].
Lemma mirror_normal u : dot u u = 1 -> 0 < vz u -> surface_normal (Surf (-1/5) 0 None false) (V (5 * vx u) (5 * vy u) (5 * vz u - 5)) = Some (V (vx u / vz u) (vy u / vz u) 1).
Proof.
  intros U Z. unfold surface_normal. cbn [s_c s_k s_asph]. destruct (Req_EM_T (-1/5) 0); [lra|]. unfold r2_of, dot in *. cbn [vx vy vz].
  replace (1 - (1 + 0) * (-1 / 5) ^ 2 * (5 * vx u * (5 * vx u) + 5 * vy u * (5 * vy u))) with (vz u * vz u) by nra.
  rewrite fsqrt_some by nra. cbn [obind]. rewrite (sqrt_is _ (vz u)) by nra. rewrite fdiv_some by lra. cbn [obind]. f_equal. apply vec_eq; cbn [vx vy vz]; field; lra.
Qed.
Lemma back5_maps v : to_normal (e_place back5) v = Some (flip v) /\ from_normal (e_place back5) v = Some (flip v).
Proof. split; unfold to_normal, from_normal, do_rotate, p_rotated; cbn [p_normal p_straight p_rot_normal andb negb back5 e_place]; f_equal; unfold flip, half_turn; destruct v; vec_ring. Qed.
Lemma returning_trace newton u : dot u u = 1 -> 0 < vz u -> geo_trace newton mirror_box v0 u 1 1 false = returning u.
Proof.
  intros U Z. unfold mirror_box, returning. cbn [geo_trace]. change (from_normal (e_place (flat 0)) ?y) with (Some y). cbn [sys_propagate onormal obind].
  change (to_normal (e_place mirror5) ?y) with (Some y). change (p_offset (e_place mirror5)) with (V 0 0 5).
  assert (S1 : propagate newton mirror5 (Some (vsub3 v0 (V 0 0 5))) (Some u) 1 1 false = (Some (V (5 * vx u) (5 * vy u) (5 * vz u - 5)), Some (vneg u), 1, Some 5)).
  { unfold propagate. cbn [obind mirror5 e_kind intercept s_asph]. unfold conic_intercept. cbn [s_c s_k s_alt]. destruct (Req_EM_T (-1/5) 0); [lra|]. destruct (Req_EM_T 0 0); [|lra].
    cbv zeta. match goal with |- context [fsqrt ?x] => replace x with (1 * 1) by (unfold dot, vsub3, v0; cbn [vx vy vz]; field) end. rewrite fsqrt_some by lra. rewrite (sqrt_is _ 1) by lra. cbn [obind].
    rewrite fdiv_some by lra. cbn [obind].
    match goal with |- context [?x / (-1/5 * 1)] => replace (x / (-1/5 * 1)) with 5 by (unfold dot, vsub3, v0; cbn [vx vy vz]; field) end.
    replace (at_ray (vsub3 v0 (V 0 0 5)) u 5) with (V (5 * vx u) (5 * vy u) (5 * vz u - 5)) by (apply vec_eq; unfold at_ray, vadd3, vmul3, vsub3, v0; cbn [vx vy vz]; ring).
    cbn [get_n_mu m_mirror m_index]. destruct (Req_EM_T (-1) 0); [lra|]. unfold refract. destruct (Req_EM_T (-1) 1); [lra|]. cbn [obind]. rewrite mirror_normal by auto. cbn [obind]. unfold refract_normal.
    assert (D1 : dot (V (vx u / vz u) (vy u / vz u) 1) (V (vx u / vz u) (vy u / vz u) 1) = 1 / (vz u * vz u)).
    { transitivity (dot u u / (vz u * vz u)); [unfold dot; cbn [vx vy vz]; field; lra|rewrite U; reflexivity]. }
    assert (D2 : dot u (V (vx u / vz u) (vy u / vz u) 1) = 1 / vz u).
    { transitivity (dot u u / vz u); [unfold dot; cbn [vx vy vz]; field; lra|rewrite U; reflexivity]. }
    rewrite D1, D2. rewrite fdiv_some by (apply Rgt_not_eq, Rdiv_lt_0_compat; nra). cbn [obind]. destruct (Req_EM_T (-1) (-1)); [|lra]. replace (Rabs (-1)) with 1 by (rewrite Rabs_left; lra).
    replace (1 * (1 / vz u) / (1 / (vz u * vz u))) with (vz u) by (field; lra).
    match goal with |- (_, Some ?b, _, Some ?d) = _ => replace b with (vneg u) by (apply vec_eq; unfold vneg, vsub3, vmul3; cbn [vx vy vz]; field; lra); replace d with 5 by ring end. reflexivity. }
  rewrite S1. change (from_normal (e_place mirror5) ?y) with (Some y). cbn [onormal obind]. change (p_offset (e_place back5)) with (V 0 0 (- (5))).
  change (from_normal (e_place mirror5) ?y) with (Some y). cbn [obind].
  rewrite (proj1 (back5_maps _)). unfold onormal. cbn [obind]. rewrite (proj1 (back5_maps _)).
  unfold propagate. cbn [obind back5 e_kind]. unfold plane_intercept. rewrite fdiv_some by (unfold flip, vneg; cbn [vx vy vz]; lra). cbn [obind].
  match goal with |- context [at_ray _ _ ?t] => replace t with 5 by (unfold flip, vneg, vsub3; cbn [vx vy vz]; field; lra) end.
  replace (at_ray (flip (vsub3 (V (5 * vx u) (5 * vy u) (5 * vz u - 5)) (V 0 0 (- (5))))) (flip (vneg u)) 5) with v0 by (apply vec_eq; unfold at_ray, flip, vneg, vsub3, vadd3, vmul3, v0; cbn [vx vy vz]; ring).
  replace (5 * 1) with 5 by ring. reflexivity.
Qed.
Lemma box_good : physical 1 mirror_box.
Proof.
  unfold physical, mirror_box. apply Forall_cons; [split; [apply flat_good; lra|exact I]|]. apply Forall_cons.
  - split; [exact (flat_good 5 ltac:(lra))|]. cbn. intros; discriminate.
  - apply Forall_cons; [|apply Forall_nil]. split; [|exact I]. cbn [back5 e_place]. destruct (init_spec (- (5)) ez v0 None) as (p & J & N & F). rewrite place_back in J by lra. injection J as <-. split; auto.
Qed.
Lemma box_regular u k : dot u u = 1 -> 0 < vz u -> (k <= 2)%nat -> regular mirror_box false k (returning u).
Proof.
  intros U Z K i J. assert (C : (i = 0 \/ i = 1 \/ i = 2)%nat) by lia. destruct C as [->|[->| ->]].
  - exists (flat 0). do 3 eexists. repeat (split; [reflexivity|]). lia.
  - exists mirror5. do 3 eexists. repeat (split; [reflexivity|]). intros _. split; [|discriminate].
    exists u. split; [reflexivity|]. unfold clean_hit, mirror5. cbn [e_kind]. split; [reflexivity|]. unfold dot in U. split.
    + unfold surface_sag. cbn [s_c s_k s_asph]. destruct (Req_EM_T (-1/5) 0); [lra|]. unfold r2_of. cbn [vx vy vz].
      replace (1 - (1 + 0) * (-1 / 5) ^ 2 * (5 * vx u * (5 * vx u) + 5 * vy u * (5 * vy u))) with (vz u * vz u) by nra.
      rewrite fsqrt_some by nra. rewrite (sqrt_is _ (vz u)) by nra. cbn [obind]. rewrite fdiv_some by lra. cbn [obind]. f_equal.
      replace (5 * vx u * (5 * vx u) + 5 * vy u * (5 * vy u)) with (25 * (1 - vz u * vz u)) by nra. field. lra.
    + exists (V (vx u / vz u) (vy u / vz u) 1). split; [apply mirror_normal; auto|].
      assert (D2 : dot (V (vx u / vz u) (vy u / vz u) 1) u = 1 / vz u) by (transitivity ((vx u * vx u + vy u * vy u + vz u * vz u) / vz u); [unfold dot; cbn [vx vy vz]; field; lra|rewrite U; reflexivity]).
      assert (P : 0 < 1 / vz u) by (apply Rdiv_lt_0_compat; lra). split; [lra|].
      replace (dot (V (vx u / vz u) (vy u / vz u) 1) (vneg u)) with (- dot (V (vx u / vz u) (vy u / vz u) 1) u) by (unfold dot, vneg; cbn [vx vy vz]; ring). lra.
  - exists back5. do 3 eexists. repeat (split; [reflexivity|]). intros _. split; [|discriminate].
    exists (flip (vneg u)). split; [reflexivity|exact Coq.Init.Logic.I].
Qed.
(** rays turned in two planes *)
Definition swing (x z h : R) : vec := V (x * cos h + z * sin h) 0 (z * cos h - x * sin h).
Definition nod (x z h : R) : vec := V (x * cos h) (sin h) (z * cos h).
Lemma lin_sin : lin sin 0 1. Proof. split; [apply sin_0|]. rewrite <- cos_0. apply derivable_pt_lim_sin. Qed.
Lemma lin_cos : lin cos 1 0. Proof. split; [apply cos_0|]. replace 0 with (- sin 0) at 2 by (rewrite sin_0; ring). apply derivable_pt_lim_cos. Qed.
Lemma swing_lin x z : vlin (swing x z) (V x 0 z) (V z 0 (- x)).
Proof.
  unfold swing, vlin. cbn [vx vy vz]. split; [|split; [apply lin_const|]].
  - eapply lin_eq; [apply lin_plus; apply lin_mult; try apply lin_const; [apply lin_cos|apply lin_sin]|ring|ring].
  - eapply lin_eq; [apply lin_minus; apply lin_mult; try apply lin_const; [apply lin_cos|apply lin_sin]|ring|ring].
Qed.
Lemma nod_lin x z : vlin (nod x z) (V x 0 z) (V 0 1 0).
Proof.
  unfold nod, vlin. cbn [vx vy vz]. split; [|split; [apply lin_sin|]].
  - eapply lin_eq; [apply lin_mult; [apply lin_const|apply lin_cos]|ring|ring].
  - eapply lin_eq; [apply lin_mult; [apply lin_const|apply lin_cos]|ring|ring].
Qed.
Lemma swing_unit x z h : x * x + z * z = 1 -> dot (swing x z h) (swing x z h) = 1.
Proof. intros E. pose proof (sin2_cos2 h) as S. unfold Rsqr in S. unfold swing, dot. cbn [vx vy vz]. transitivity ((x * x + z * z) * (sin h * sin h + cos h * cos h)); [ring|]. rewrite E, S. ring. Qed.
Lemma nod_unit x z h : x * x + z * z = 1 -> dot (nod x z h) (nod x z h) = 1.
Proof. intros E. pose proof (sin2_cos2 h) as S. unfold Rsqr in S. unfold nod, dot. cbn [vx vy vz]. transitivity ((x * x + z * z) * (cos h * cos h) + sin h * sin h); [ring|]. rewrite E. lra. Qed.
Lemma shift_lin p a : vlin (fun t => vadd3 p (vmul3 t a)) p a.
Proof.
  pose proof (vlin_add _ _ _ _ _ _ (vlin_const p) (vlin_scale _ _ _ _ _ _ lin_id (vlin_const a))) as X.
  replace (vadd3 v0 (vadd3 (vmul3 1 a) (vmul3 0 v0))) with a in X by vec_ring. replace (vadd3 p (vmul3 0 a)) with p in X by vec_ring. exact X.
Qed.
(** what C69_regular and C69_etendue assume: two positions and two directions around an inclined ray *)
Example C69_neighbours : physical 1 mirror_box /\ regular mirror_box false 2 (returning (V (3/5) 0 (4/5))) /\
  let Y := (fun j => match j with 0 => fun h => vadd3 v0 (vmul3 h ex) | 1 => fun h => vadd3 v0 (vmul3 h ey) | _ => fun _ => v0 end)%nat in
  let U := (fun j => match j with 0 | 1 => fun _ => V (3/5) 0 (4/5) | 2 => swing (3/5) (4/5) | _ => nod (3/5) (4/5) end)%nat in
  let dy := (fun j => match j with 0 => ex | 1 => ey | _ => v0 end)%nat in
  let du := (fun j => match j with 0 | 1 => v0 | 2 => V (4/5) 0 (- (3/5)) | _ => V 0 1 0 end)%nat in
  (forall j, (j < 4)%nat -> vlin (Y j) v0 (dy j) /\ vlin (U j) (V (3/5) 0 (4/5)) (du j) /\ near (fun h => dot (U j h) (U j h) = 1) /\ vz (dy j) = 0) /\ volume 1 dy du = 4/5.
Proof.
  split; [exact box_good|]. split; [apply box_regular; [unfold dot; cbn; lra|cbn; lra|lia]|]. intros Y U dy du. split; [|unfold volume, det3, dy, du, ex, ey, v0; cbn [vx vy vz]; lra].
  assert (C : near (fun _ : R => dot (V (3/5) 0 (4/5)) (V (3/5) 0 (4/5)) = 1)) by (apply near_true; intros _; unfold dot; cbn; lra).
  intros j J. destruct j as [|[|[|[|j]]]]; [| | | |lia]; cbn [Y U dy du].
  - split; [apply shift_lin|]. split; [apply vlin_const|]. split; [exact C|reflexivity].
  - split; [apply shift_lin|]. split; [apply vlin_const|]. split; [exact C|reflexivity].
  - split; [apply vlin_const|]. split; [apply swing_lin|]. split; [apply near_true; intros h; apply swing_unit; lra|reflexivity].
  - split; [apply vlin_const|]. split; [apply nod_lin|]. split; [apply near_true; intros h; apply nod_unit; lra|reflexivity].
Qed.
(** what C69_sine_condition assumes, for all rays up to one radian from the axis *)
Example C69_aplanatic newton h : -1 < h < 1 -> let U h := V (sin h) 0 (cos h) in
  dot (U h) (U h) = 1 /\ (exists du, vlin (fun t => U (h + t)) (U h) du) /\ regular mirror_box false 2 (geo_trace newton mirror_box v0 (U h) 1 1 false) /\
     position_at 2 (geo_trace newton mirror_box v0 (U h) 1 1 false) = Some v0 /\
     exists q, ovlin (fun t => position_at 2 (geo_trace newton mirror_box (vadd3 v0 (vmul3 t ex)) (U h) 1 1 false)) q (vneg ex).
Proof.
  intros HH U. pose proof (sin2_cos2 h) as SC. unfold Rsqr in SC. pose proof PI2_3_2 as P2.
  assert (CP : 0 < cos h) by (apply cos_gt_0; lra).
  assert (U1 : dot (U h) (U h) = 1) by (unfold U, dot; cbn [vx vy vz]; lra).
  assert (EU : forall t, U (h + t) = swing (sin h) (cos h) t).
  { intros t. unfold U, swing. rewrite sin_plus, cos_plus. apply vec_eq; cbn [vx vy vz]; ring. }
  assert (LU : vlin (fun t => U (h + t)) (U h) (V (cos h) 0 (- sin h))).
  { eapply vlin_near; [|apply swing_lin]. apply near_true. intros t. symmetry. apply EU. }
  assert (RG : regular mirror_box false 2 (geo_trace newton mirror_box v0 (U h) 1 1 false)) by (rewrite returning_trace by auto; apply box_regular; auto).
  split; [exact U1|]. split; [eauto|]. split; [exact RG|]. split; [rewrite returning_trace by auto; reflexivity|].
  assert (UC : near (fun _ : R => dot (U h) (U h) = 1)) by (apply near_true; auto).
  assert (NZ : forall W du, vlin W (U h) du -> near (fun t => 0 < vz (W t))).
  { intros W du (_ & _ & LZ). eapply lin_pos; [exact LZ|exact CP]. }
  assert (BACK : forall W du, vlin W (U h) du -> near (fun t => dot (W t) (W t) = 1) ->
     ovlin (fun t => position_at 2 (geo_trace newton mirror_box v0 (W t) 1 1 false)) v0 v0 /\ ovlin (fun t => direction_at 2 (geo_trace newton mirror_box v0 (W t) 1 1 false)) (flip (vneg (U h))) (flip (vneg du))).
  { intros W du LW WU. assert (E : near (fun t => geo_trace newton mirror_box v0 (W t) 1 1 false = returning (W t))).
    { eapply near_impl; [|exact (near_and _ _ WU (NZ _ _ LW))]. intros t (A & B). apply returning_trace; auto. }
    split.
    - exists (fun _ => v0). split; [apply vlin_const|]. eapply near_impl; [|exact E]. intros t Q. rewrite Q. reflexivity.
    - exists (fun t => flip (vneg (W t))). split.
      + destruct LW as (A & B & C). unfold flip, vneg, vlin. cbn [vx vy vz]. split; [|split]; repeat apply lin_opp; auto.
      + eapply near_impl; [|exact E]. intros t Q. rewrite Q. reflexivity. }
  assert (LC : vlin (fun _ : R => U h) (U h) v0) by apply vlin_const.
  assert (WS : near (fun t => dot (swing (sin h) (cos h) t) (swing (sin h) (cos h) t) = 1)) by (apply near_true; intros t; apply swing_unit; lra).
  assert (WN : near (fun t => dot (nod (sin h) (cos h) t) (nod (sin h) (cos h) t) = 1)) by (apply near_true; intros t; apply nod_unit; lra).
  destruct (BACK _ _ (swing_lin (sin h) (cos h)) WS) as (S1 & S2). destruct (BACK _ _ (nod_lin (sin h) (cos h)) WN) as (N1 & N2).
  pose proof (trace_smooth newton mirror_box _ _ _ _ _ _ 1 1 false box_good Rlt_0_1 (shift_lin v0 ex) LC UC 2 RG) as SM. cbv zeta in SM. destruct (SM 2%nat ltac:(lia)) as (p & dp & v & dv & A & B & _).
  assert (NK : forall s, nth_error (geo_trace newton mirror_box v0 (U h) 1 1 false) 2 = Some s -> st_n s = 1) by (rewrite returning_trace by auto; intros s E; injection E as <-; reflexivity).
  pose proof (regular_pair newton mirror_box _ _ _ _ _ _ _ _ _ _ 1 1 false 2 _ _ _ _ _ _ _ _ _ box_good Rlt_0_1 (shift_lin v0 ex) LC (vlin_const v0) (swing_lin (sin h) (cos h)) UC WS RG A B S1 S2 NK) as P1.
  pose proof (regular_pair newton mirror_box _ _ _ _ _ _ _ _ _ _ 1 1 false 2 _ _ _ _ _ _ _ _ _ box_good Rlt_0_1 (shift_lin v0 ex) LC (vlin_const v0) (nod_lin (sin h) (cos h)) UC WN RG A B N1 N2 NK) as P3.
  unfold lagrange, flip, vneg, v0, ex in P1, P3. cbn [vx vy vz] in P1, P3.
  assert (Z : vz dp = 0).
  { destruct A as (f & L & M). destruct (SM 1%nat ltac:(lia)) as (q & dq & _ & _ & (f1 & _ & M1) & _).
    assert (Z : near (fun t => vz (f t) = 0)).
    { eapply near_impl; [|exact (near_and _ _ M M1)]. intros t (MH & MH1). cbn beta in *. unfold position_at in MH, MH1.
      destruct (nth_error (geo_trace newton mirror_box (vadd3 v0 (vmul3 t ex)) (U h) 1 1 false) 2) as [s|] eqn:Q; cbn [obind] in MH; [|discriminate].
      destruct (nth_error (geo_trace newton mirror_box (vadd3 v0 (vmul3 t ex)) (U h) 1 1 false) 1) as [s'|] eqn:Q'; cbn [obind] in MH1; [|discriminate].
      exact (C16_on_surface newton mirror_box _ _ 1 1 false 1 mirror5 back5 s' s box_good Rlt_0_1 U1 eq_refl eq_refl Q' Q I _ MH). }
    destruct L as (_ & _ & LZ). destruct (lin_unique _ _ _ _ _ (lin_near _ (fun _ => 0) _ _ Z LZ) (lin_const 0)) as (_ & Q). exact Q. }
  exists p. replace (vneg ex) with dp; [exact A|]. rewrite Z in P1, P3. destruct dp as [a b d]. cbn [vx vy vz] in *. unfold vneg, ex. cbn [vx vy vz]. subst d.
  assert (a = -1) by nra. assert (b = 0) by lra. subst. f_equal; ring.
Qed.
(** what C69_lagrange assumes: a shifted and a turned neighbour of an inclined ray *)
Example C69_families newton : let u := V (3/5) 0 (4/5) in
  let ray h := geo_trace newton mirror_box (vadd3 v0 (vmul3 h ex)) u 1 1 false in let yar h := geo_trace newton mirror_box v0 (swing (3/5) (4/5) h) 1 1 false in
  exists yy uu dyy duu eyy euu : nat -> vec,
  (forall i, (i <= 2)%nat -> ovlin (fun h => position_at i (ray h)) (yy i) (dyy i) /\ ovlin (fun h => direction_at i (ray h)) (uu i) (duu i)) /\
  (forall i, (i <= 2)%nat -> ovlin (fun h => position_at i (yar h)) (yy i) (eyy i) /\ ovlin (fun h => direction_at i (yar h)) (uu i) (euu i)) /\
  (forall i e m s, (i < 2)%nat -> nth_error mirror_box (S i) = Some e -> e_kind e = Sph (Some m) s ->
     near (fun h => (exists p, position_at (S i) (ray h) = Some p /\ surface_sag s p = Some 0) /\ (exists p, position_at (S i) (yar h) = Some p /\ surface_sag s p = Some 0))) /\
  lagrange (dyy 0%nat) (duu 0%nat) (eyy 0%nat) (euu 0%nat) = 4/5.
Proof.
  intros u ray yar. assert (U1 : dot u u = 1) by (unfold u, dot; cbn; lra). assert (UP : 0 < vz u) by (unfold u; cbn; lra).
  assert (RG : regular mirror_box false 2 (geo_trace newton mirror_box v0 u 1 1 false)) by (rewrite returning_trace by auto; apply box_regular; auto).
  assert (S1 := trace_smooth newton mirror_box _ _ _ _ _ _ 1 1 false box_good Rlt_0_1 (shift_lin v0 ex) (vlin_const u) (near_true _ (fun _ => U1)) 2 RG).
  assert (S2 := trace_smooth newton mirror_box _ _ _ _ _ _ 1 1 false box_good Rlt_0_1 (vlin_const v0) (swing_lin (3/5) (4/5)) (near_true _ (fun h => swing_unit (3/5) (4/5) h ltac:(lra))) 2 RG).
  cbv zeta in S1, S2. fold ray in S1. fold yar in S2.
  assert (R1 : ray 0 = returning u) by (unfold ray; replace (vadd3 v0 (vmul3 0 ex)) with v0 by vec_ring; apply returning_trace; auto).
  assert (R2 : yar 0 = returning u) by (unfold yar; rewrite (vlin_at0 _ _ _ (swing_lin (3/5) (4/5))); apply returning_trace; auto).
  destruct (S1 1%nat ltac:(lia)) as (p1 & dp1 & w1 & dw1 & A1 & B1 & _ & O1). destruct (S1 2%nat ltac:(lia)) as (p2 & dp2 & w2 & dw2 & A2 & B2 & _ & O2).
  destruct (S2 1%nat ltac:(lia)) as (q1 & dq1 & x1 & dx1 & C1 & D1 & _ & O3). destruct (S2 2%nat ltac:(lia)) as (q2 & dq2 & x2 & dx2 & C2 & D2 & _ & O4).
  assert (p1 = q1) by (apply ovlin_at0 in A1, C1; change (position_at 1 (ray 0) = Some p1) in A1; change (position_at 1 (yar 0) = Some q1) in C1; rewrite R1 in A1; rewrite R2 in C1; congruence).
  assert (p2 = q2) by (apply ovlin_at0 in A2, C2; change (position_at 2 (ray 0) = Some p2) in A2; change (position_at 2 (yar 0) = Some q2) in C2; rewrite R1 in A2; rewrite R2 in C2; congruence).
  assert (w1 = x1) by (apply ovlin_at0 in B1, D1; change (direction_at 1 (ray 0) = Some w1) in B1; change (direction_at 1 (yar 0) = Some x1) in D1; rewrite R1 in B1; rewrite R2 in D1; congruence).
  assert (w2 = x2) by (apply ovlin_at0 in B2, D2; change (direction_at 2 (ray 0) = Some w2) in B2; change (direction_at 2 (yar 0) = Some x2) in D2; rewrite R1 in B2; rewrite R2 in D2; congruence).
  subst q1 q2 x1 x2.
  exists (fun i => match i with 0 => v0 | 1 => p1 | _ => p2 end)%nat, (fun i => match i with 0 => u | 1 => w1 | _ => w2 end)%nat,
    (fun i => match i with 0 => ex | 1 => dp1 | _ => dp2 end)%nat, (fun i => match i with 0 => v0 | 1 => dw1 | _ => dw2 end)%nat,
    (fun i => match i with 0 => v0 | 1 => dq1 | _ => dq2 end)%nat, (fun i => match i with 0 => V (4/5) 0 (- (3/5)) | 1 => dx1 | _ => dx2 end)%nat.
  split; [|split; [|split]].
  - intros i K. destruct i as [|[|[|i]]]; [|split; assumption|split; assumption|lia]. split; apply ovlin_some; [apply shift_lin|apply vlin_const].
  - intros i K. destruct i as [|[|[|i]]]; [|split; assumption|split; assumption|lia]. split; apply ovlin_some; [apply vlin_const|apply swing_lin].
  - intros i e m s K E EK. destruct i as [|[|i]]; [|injection E as <-; discriminate|lia]. apply near_and; [eapply O1; eauto; lia|eapply O3; eauto; lia].
  - unfold lagrange, ex, v0. cbn [vx vy vz]. lra.
Qed.
