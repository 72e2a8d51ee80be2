(** C63, C64: straightened axis coordinates in space; cut outlines. *)
From Coq Require Import Reals List Arith Bool Lia Lra Psatz Sorted.
From Verif Require Import Base Vec RotModel PlacementModel ElementModel LayoutModel SampleModel GaussianModel DrawModel RotProofs RotEuler PlacementProofs PropsPlacement PropsLayout.
Import ListNotations.
Open Scope R_scope.

(** * C63 *)
Lemma all_length {A B} (f : A -> option B) l r : all f l = Some r -> length r = length l.
Proof.
  revert r. induction l as [|a l IH]; intros r H; [injection H as <-; auto|]. cbn in H.
  destruct (f a); [|discriminate H]. cbn in H. destruct (all f l) as [r'|]; [|discriminate H]. injection H as <-. cbn. f_equal. auto.
Qed.
Lemma all_nth {A B} (f : A -> option B) l r : all f l = Some r -> forall k a, nth_error l k = Some a -> exists b, nth_error r k = Some b /\ f a = Some b.
Proof.
  revert r. induction l as [|x l IH]; intros r H k a Hk; [destruct k; discriminate Hk|]. cbn in H.
  destruct (f x) as [b|] eqn:F; [|discriminate H]. cbn in H. destruct (all f l) as [r'|] eqn:E; [|discriminate H]. injection H as <-.
  destruct k as [|k]; [injection Hk as <-; exists b; auto|]. cbn. apply (IH r' eq_refl); auto.
Qed.
Lemma all_total {A B} (f : A -> option B) l : (forall a, In a l -> f a <> None) -> exists r, all f l = Some r.
Proof.
  induction l as [|x l IH]; intros H; [cbn; eauto|]. cbn. destruct (f x) as [b|] eqn:F; [|exfalso; apply (H x); cbn; auto]. cbn.
  destruct IH as [r ->]; [intros a Ha; apply H; cbn; auto|]. cbn. eauto.
Qed.
(** how many split points are not above k *)
Definition below (idx : list nat) (k : nat) : nat := length (filter (fun b => b <=? k)%nat idx).
(** row image by element j *)
Definition row_image (s : list placement) (j : nat) (row row' : list vec) : Prop :=
  exists e z o, let k := Nat.min (length s - 1) j in nth_error s k = Some e /\ nth_error (path s) k = Some z /\ nth_error (LayoutModel.origins s) k = Some o /\ all (place_point e z o) row = Some row'.
Lemma below_none idx k : Forall (fun b => k < b)%nat idx -> below idx k = 0%nat.
Proof. unfold below. induction 1 as [|b idx H F IH]; [auto|]. cbn. destruct (Nat.leb_spec b k); [lia|auto]. Qed.
Lemma slice_nth {A} a b (l : list A) k : (k < b - a)%nat -> nth_error (slice a b l) k = nth_error l (a + k).
Proof.
  intros H. unfold slice. revert a b k l H.
  assert (F : forall n k (l : list A), (k < n)%nat -> nth_error (firstn n l) k = nth_error l k).
  { intros n. induction n as [|n IH]; intros k l H; [lia|]. destruct l; [destruct k; auto|]. destruct k; [auto|]. cbn. apply IH. lia. }
  assert (S : forall a k (l : list A), nth_error (skipn a l) k = nth_error l (a + k)).
  { induction a as [|a IH]; intros k l; [auto|]. destruct l; [destruct k; auto|]. cbn. apply IH. }
  intros a b k l H. rewrite F by auto. apply S.
Qed.
Lemma pieces_rows s idx : forall start j l out, Sorted.StronglySorted le (start :: idx) -> from_axis_pieces s j (vsplit start idx l) = Some out ->
  length out = (length l - start)%nat /\
  forall k row, nth_error l (start + k) = Some row -> exists row', nth_error out k = Some row' /\ row_image s (j + below idx (start + k)) row row'.
Proof.
  induction idx as [|b idx IH]; intros start j l out SO H.
  - cbn [vsplit from_axis_pieces] in H.
    destruct (nth_error s _) as [e|] eqn:E; [|discriminate H]. cbn [obind] in H. destruct (nth_error (path s) _) as [z|] eqn:Z; [|discriminate H]. cbn [obind] in H.
    destruct (nth_error (LayoutModel.origins s) _) as [o|] eqn:O; [|discriminate H]. cbn [obind] in H. destruct (all _ (skipn start l)) as [r|] eqn:R; [|discriminate H]. injection H as <-. rewrite app_nil_r.
    split; [rewrite (all_length _ _ _ R); apply skipn_length|]. intros k row Hk. change (below [] (start + k)) with 0%nat. rewrite Nat.add_0_r.
    assert (Hs : nth_error (skipn start l) k = Some row).
    { rewrite <- Hk. clear. revert l k. induction start as [|a IH]; intros l k; [auto|]. destruct l; [destruct k; auto|]. cbn. apply IH. }
    destruct (all_nth _ _ _ R k row Hs) as (row' & N & A). exists row'. split; [auto|]. exists e, z, o. auto.
  - cbn [vsplit from_axis_pieces] in H.
    destruct (nth_error s _) as [e|] eqn:E; [|discriminate H]. cbn [obind] in H. destruct (nth_error (path s) _) as [z|] eqn:Z; [|discriminate H]. cbn [obind] in H.
    destruct (nth_error (LayoutModel.origins s) _) as [o|] eqn:O; [|discriminate H]. cbn [obind] in H. destruct (all _ (slice start b l)) as [r|] eqn:R; [|discriminate H]. cbn [obind] in H.
    destruct (from_axis_pieces s (S j) _) as [rest|] eqn:RE; [|discriminate H]. injection H as <-.
    inversion SO as [|? ? SO' F]; subst. inversion F as [|? ? LE F']; subst. inversion SO' as [|? ? SO'' F'']; subst.
    destruct (IH b (S j) l rest SO' RE) as [L N].
    assert (LR : length r = Nat.min (b - start) (length l - start)). { rewrite (all_length _ _ _ R). unfold slice. rewrite firstn_length, skipn_length. auto. }
    split; [rewrite app_length, L, LR; lia|]. intros k row Hk.
    assert (KL : (start + k < length l)%nat) by (apply nth_error_Some; congruence).
    destruct (Nat.lt_ge_cases (start + k) b) as [KB|KB].
    + rewrite below_none.
      2: { constructor; [auto|]. apply Forall_forall. intros x Hx. rewrite Forall_forall in F''. specialize (F'' x Hx). lia. }
      rewrite Nat.add_0_r. destruct (all_nth _ _ _ R k row) as (row' & N' & A); [rewrite slice_nth by lia; auto|].
      exists row'. split; [rewrite nth_error_app1 by (rewrite LR; lia); auto|]. exists e, z, o. auto.
    + destruct (N (start + k - b)%nat row) as (row' & N' & A); [replace (b + (start + k - b))%nat with (start + k)%nat by lia; auto|].
      exists row'. split; [rewrite nth_error_app2 by (rewrite LR; lia); rewrite LR; replace (k - Nat.min (b - start) (length l - start))%nat with (start + k - b)%nat by lia; auto|].
      replace (b + (start + k - b))%nat with (start + k)%nat in A by lia.
      replace (j + below (b :: idx) (start + k))%nat with (S j + below idx (start + k))%nat; [exact A|].
      unfold below. cbn [filter]. destruct (Nat.leb_spec b (start + k)); [cbn [length]; lia|lia].
Qed.

(** elements as built by any history of assignments, with axes not within numerical tolerance of, but different from, the z axis *)
Definition built (p : placement) : Prop := exists distance direction angles offset history q,
  init distance direction angles offset = Some q /\ run history q = Some p.
Definition axis_clear (p : placement) : Prop := p_direction p = ez \/ / 100000000 < Rabs (vx (p_direction p)) \/ / 100000000 < Rabs (vy (p_direction p)).
(** orthonormal right handed transverse directions a, b for the axis d *)
Definition frame (a b d : vec) : Prop := norm a = 1 /\ norm b = 1 /\ norm d = 1 /\ dot a b = 0 /\ dot a d = 0 /\ dot b d = 0 /\ cross a b = d.
(** the transverse directions of an element: images of x and y *)
Definition side (p : placement) (v : vec) : vec := match PlacementModel.from_axis p v with Some a => a | None => v0 end.
Lemma built_frame p : built p -> axis_clear p -> frame (side p ex) (side p ey) (p_direction p) /\
  forall y, PlacementModel.from_axis p y = Some (vadd3 (vmul3 (vx y) (side p ex)) (vadd3 (vmul3 (vy y) (side p ey)) (vmul3 (vz y) (p_direction p)))).
Proof.
  intros (di & dr & an & of & hi & q & I & R) C. destruct (C08_frames_rigid di dr an of hi) as (q' & p' & I' & R' & F & _ & _ & D). rewrite I in I'. injection I' as <-. rewrite R in R'. injection R' as <-.
  destruct (init_spec di dr an of) as (q' & I' & NF & FO). rewrite I in I'. injection I' as <-. destruct (run_spec hi q NF FO) as (p' & R' & NF' & FO'). rewrite R in R'. injection R' as <-.
  destruct (axis_rigid p NF' FO') as (r & RR & FA & _). destruct D as (d & D1 & D2 & D3 & _).
  assert (DD : vm ez r = p_direction p).
  { rewrite FA in D1. injection D1 as D1. rewrite D1. destruct C as [C|C]; [rewrite C; auto|auto]. }
  unfold side. rewrite !FA. split.
  - assert (N : forall v, norm v = 1 -> norm (vm v r) = 1) by (intros v Hv; rewrite rotation_norm; auto).
    assert (n1 : forall v, dot v v = 1 -> norm v = 1) by (intros; apply norm_unit; auto).
    rewrite <- DD. unfold frame. rewrite !rotation_dot, rotation_cross by auto.
    repeat split; try (apply N; apply n1); try (unfold dot, ex, ey, ez; cbn; ring). f_equal. unfold cross, ex, ey, ez; cbn. f_equal; ring.
  - intros y. rewrite FA, <- DD. f_equal. rewrite <- !vm_scale, <- !vm_add. f_equal. destruct y as [x y z]. unfold vadd3, vmul3, ex, ey, ez; cbn. f_equal; ring.
Qed.
Lemma cumsum1_S l : forall acc j p d, nth_error (cumsum1 acc l) j = Some p -> nth_error l (S j) = Some d -> nth_error (cumsum1 acc l) (S j) = Some (p + d).
Proof.
  induction l as [|x l IH]; intros acc j p d Hp Hd; [destruct j; discriminate Hp|]. destruct j as [|j].
  - cbn in *. injection Hp as <-. destruct l as [|y l]; [discriminate Hd|]. cbn in *. congruence.
  - cbn [cumsum1]. change (nth_error (cumsum1 (acc + x) l) (S j) = Some (p + d)). apply IH; auto.
Qed.
Lemma cumsum3_S l : forall acc j p d, nth_error (cumsum3 acc l) j = Some p -> nth_error l (S j) = Some d -> nth_error (cumsum3 acc l) (S j) = Some (vadd3 p d).
Proof.
  induction l as [|x l IH]; intros acc j p d Hp Hd; [destruct j; discriminate Hp|]. destruct j as [|j].
  - cbn in *. injection Hp as <-. destruct l as [|y l]; [discriminate Hd|]. cbn in *. congruence.
  - cbn [cumsum3]. change (nth_error (cumsum3 (vadd3 acc x) l) (S j) = Some (vadd3 p d)). apply IH; auto.
Qed.
Lemma built_normal p : built p -> normal_form p.
Proof.
  intros (di & dr & an & of & hi & q & I & R). destruct (init_spec di dr an of) as (q' & I' & NF & FO). rewrite I in I'. injection I' as <-.
  destruct (run_spec hi q NF FO) as (p' & R' & NF' & _). rewrite R in R'. injection R' as <-. auto.
Qed.
(** frames of the segments, one for each element *)
Definition frames_of (s : list placement) (fr : nat -> vec * vec) : Prop := forall j p, nth_error s j = Some p -> frame (fst (fr j)) (snd (fr j)) (p_direction p).
(** a point of the segment of element j, which leaves vertex j-1 at path(j-1) and reaches vertex j at path(j):
    w is vz y along the unfolded axis and vx y, vy y aside along the transverse directions of the segment *)
Definition place (s : list placement) (fr : nat -> vec * vec) (j : nat) (y w : vec) : Prop :=
  exists p z o, nth_error s j = Some p /\ nth_error (path s) j = Some z /\ nth_error (LayoutModel.origins s) j = Some o /\
    let aside := vadd3 (vmul3 (vx y) (fst (fr j))) (vmul3 (vy y) (snd (fr j))) in
    w = vadd3 o (vadd3 (vmul3 (vz y - z) (p_direction p)) aside) /\
    forall i zi oi, j = S i -> nth_error (path s) i = Some zi -> nth_error (LayoutModel.origins s) i = Some oi ->
      zi <= z /\ w = vadd3 oi (vadd3 (vmul3 (vz y - zi) (p_direction p)) aside).
Definition model_frames (s : list placement) (j : nat) : vec * vec := match nth_error s j with Some p => (side p ex, side p ey) | None => (v0, v0) end.
Lemma model_frames_ok s : Forall built s -> Forall axis_clear s -> frames_of s (model_frames s).
Proof.
  intros B C j p P. unfold model_frames. rewrite P. rewrite Forall_forall in B, C. assert (IP : In p s) by (eapply nth_error_In; eauto). apply built_frame; auto.
Qed.
Lemma place_spec s j p z o y w : Forall built s -> Forall axis_clear s -> nth_error s j = Some p -> nth_error (path s) j = Some z -> nth_error (LayoutModel.origins s) j = Some o ->
  place_point p z o y = Some w -> place s (model_frames s) j y w.
Proof.
  intros B C P Z O H. assert (IP : In p s) by (eapply nth_error_In; eauto). rewrite Forall_forall in B, C. pose proof (B p IP) as BP. pose proof (C p IP) as CP.
  destruct (built_frame p BP CP) as (F & FA). unfold place_point in H. rewrite FA in H. injection H as <-.
  exists p, z, o. split; [auto|]. split; [auto|]. split; [auto|]. cbv zeta. unfold model_frames. rewrite P. cbn [fst snd].
  set (a := side p ex). set (b := side p ey). split; [vec_ring|].
  intros i zi oi -> Zi Oi. destruct (built_normal p BP) as (D0 & _ & OF).
  assert (E1 : z = zi + p_distance p). { assert (Some z = Some (zi + p_distance p)); [|congruence]. rewrite <- Z. apply cumsum1_S; auto. rewrite nth_error_map, P. reflexivity. }
  assert (E2 : o = vadd3 oi (p_offset p)). { assert (Some o = Some (vadd3 oi (p_offset p))); [|congruence]. rewrite <- O. apply cumsum3_S; auto. rewrite nth_error_map, P. reflexivity. }
  split; [lra|]. subst z o. rewrite OF. vec_ring.
Qed.
Lemma place_total s j : Forall built s -> (j < length s)%nat -> exists e z o, nth_error s j = Some e /\ nth_error (path s) j = Some z /\ nth_error (LayoutModel.origins s) j = Some o /\ forall y, place_point e z o y <> None.
Proof.
  intros B J. destruct (nth_error s j) as [e|] eqn:E; [|apply nth_error_None in E; lia]. destruct (C41_origins s j J) as (O & P & _). rewrite O, P.
  eexists. eexists. eexists. split; [reflexivity|]. split; [reflexivity|]. split; [reflexivity|]. intros y. unfold place_point.
  rewrite Forall_forall in B. assert (BE : built e) by (apply B; eapply nth_error_In; eauto).
  destruct BE as (di & dr & an & of & hi & q & I & R). destruct (C08_frames_rigid di dr an of hi) as (q' & p' & I' & R' & F & _). rewrite I in I'. injection I' as <-. rewrite R in R'. injection R' as <-.
  destruct F as (F & _). destruct (F (vsub3 y (V 0 0 (rsum (map p_distance (firstn (S j) s)))))) as (w & W & _). rewrite W. discriminate.
Qed.
Lemma pieces_total s ps : forall j, s <> [] -> Forall built s -> exists out, from_axis_pieces s j ps = Some out.
Proof.
  intros j NE B. revert j. induction ps as [|rows ps IH]; intros j; [cbn; eauto|]. cbn [from_axis_pieces].
  destruct (place_total s (Nat.min (length s - 1) j) B) as (e & z & o & -> & -> & -> & T). { destruct s; [contradiction|cbn; lia]. } cbn [obind].
  destruct (all_total (all (place_point e z o)) rows) as [r ->]. { intros row _. destruct (all_total (place_point e z o) row) as [x ->]; [intros; apply T|discriminate]. } cbn [obind].
  destruct (IH (S j)) as [out ->]. cbn. eauto.
Qed.
(** split points *)
Lemma search_le zs : forall k z p, StronglySorted Rle zs -> nth_error zs k = Some z -> ((searchsorted_left zs p <= k)%nat <-> p <= z).
Proof.
  induction zs as [|x zs IH]; intros k z p SO H; [destruct k; discriminate H|]. inversion SO as [|? ? SO' F]; subst. cbn [searchsorted_left].
  destruct (Rlt_dec x p) as [L|L].
  - destruct k as [|k]; [injection H as ->; split; [lia|lra]|]. cbn in H. rewrite <- (IH k z p SO' H). lia.
  - split; [|lia]. intros _. destruct k as [|k]; [injection H as ->; lra|]. cbn in H. rewrite Forall_forall in F. specialize (F z (nth_error_In _ _ H)). lra.
Qed.
Definition reached (path : list R) (z : R) : nat := length (filter (fun p => if Rle_dec p z then true else false) path).
Lemma below_reached ps zs k z : StronglySorted Rle zs -> nth_error zs k = Some z -> below (split_points ps zs) k = reached ps z.
Proof.
  intros SO H. unfold below, reached, split_points. induction ps as [|p ps IH]; [auto|]. cbn [map filter].
  pose proof (search_le zs k z p SO H) as E. destruct (Nat.leb_spec (searchsorted_left zs p) k), (Rle_dec p z); cbn [length]; try (f_equal; exact IH); try exact IH; exfalso; try tauto. apply E in r; lia.
Qed.
Lemma search_mono zs p q : p <= q -> (searchsorted_left zs p <= searchsorted_left zs q)%nat.
Proof. intros H. induction zs as [|x zs IH]; [auto|]. cbn. destruct (Rlt_dec x p), (Rlt_dec x q); try lia. lra. Qed.
Lemma cumsum1_sorted l : forall acc, Forall (Rle 0) l -> StronglySorted Rle (acc :: cumsum1 acc l).
Proof.
  induction l as [|x l IH]; intros acc F; [repeat constructor|]. inversion F as [|? ? X F']; subst. cbn [cumsum1]. specialize (IH (acc + x) F').
  constructor; [auto|]. inversion IH as [|? ? _ G]; subst. constructor; [lra|]. eapply Forall_impl; [|exact G]. cbn. intros. lra.
Qed.
Lemma path_sorted s : Forall built s -> StronglySorted Rle (path s).
Proof.
  intros B. assert (F : Forall (Rle 0) (map p_distance s)). { apply Forall_forall. intros d Hd. apply in_map_iff in Hd. destruct Hd as (p & <- & Hp). rewrite Forall_forall in B. destruct (built_normal p (B p Hp)) as (D & _). auto. }
  pose proof (cumsum1_sorted _ 0 F) as H. inversion H; auto.
Qed.
Lemma split_sorted ps zs : StronglySorted Rle ps -> StronglySorted le (0%nat :: split_points ps zs).
Proof.
  intros H. constructor; [|apply Forall_forall; intros; lia]. induction H as [|p ps SO IH F]; [constructor|]. cbn. constructor; [auto|].
  apply Forall_forall. intros x Hx. apply in_map_iff in Hx. destruct Hx as (q & <- & Hq). rewrite Forall_forall in F. apply search_mono, F, Hq.
Qed.
Lemma filter_none {A} (f : A -> bool) l : Forall (fun a => f a = false) l -> filter f l = [].
Proof. induction 1 as [|a l H F IH]; [auto|]. cbn. now rewrite H. Qed.
(** in a sorted path the number of vertices reached is the position between them *)
Lemma reached_between ps z : StronglySorted Rle ps -> forall j p, nth_error ps j = Some p -> ((j < reached ps z)%nat <-> p <= z).
Proof.
  intros SO. induction SO as [|x ps SO IH F]; intros j p H; [destruct j; discriminate H|]. unfold reached. cbn [filter].
  destruct (Rle_dec x z) as [L|L].
  - cbn [length]. fold (reached ps z). destruct j as [|j]; [injection H as ->; split; [auto|lia]|]. cbn in H. rewrite <- (IH j p H). lia.
  - rewrite filter_none.
    + cbn. split; [lia|]. intros G. exfalso. destruct j as [|j]; [injection H as ->; lra|]. cbn in H. rewrite Forall_forall in F. specialize (F p (nth_error_In _ _ H)). lra.
    + eapply Forall_impl; [|exact F]. cbn. intros q Hq. destruct (Rle_dec q z); [lra|auto].
Qed.
Lemma path_length s : length (path s) = length s.
Proof. unfold path. assert (L : forall l acc, length (cumsum1 acc l) = length l) by (induction l; intros; cbn; auto). rewrite L, map_length. auto. Qed.
(** every row of points, ordered along the reference ray, goes to the segment its reference point lies in; before the
    first vertex the first segment is extended, behind the last vertex the last one *)
Theorem C63_from_axis s : s <> [] -> Forall built s -> Forall axis_clear s -> exists fr, frames_of s fr /\
  forall ref rows zs, all (fun row => do y <- nth_error row ref; Some (vz y)) rows = Some zs -> StronglySorted Rle zs ->
  exists out, trace_from_axis_auto s ref rows = Some out /\ length out = length rows /\
  forall k row z, nth_error rows k = Some row -> nth_error zs k = Some z ->
  exists j row', nth_error out k = Some row' /\ length row' = length row /\ (j < length s)%nat /\
    (forall i zi, (i < j)%nat -> nth_error (path s) i = Some zi -> zi <= z) /\
    (forall zj, (j < length s - 1)%nat -> nth_error (path s) j = Some zj -> z < zj) /\
    forall m y w, nth_error row m = Some y -> nth_error row' m = Some w -> place s fr j y w.
Proof.
  intros NE B C. exists (model_frames s). split; [apply model_frames_ok; auto|]. intros ref rows zs HZ SO.
  unfold trace_from_axis_auto. rewrite HZ. cbn [obind]. unfold trace_from_axis.
  destruct (pieces_total s (vsplit 0 (split_points (path s) zs) rows) 0 NE B) as [out HO]. exists out. split; [auto|].
  pose proof (path_sorted s B) as PS. destruct (pieces_rows s _ 0 0 rows out (split_sorted _ zs PS) HO) as [L N]. split; [lia|].
  intros k row z Hk Hz. destruct (N k row Hk) as (row' & Hr & (e & zz & o & E & Z & O & A)). cbn [Nat.add] in *. cbv zeta in *. rewrite (below_reached _ _ _ _ SO Hz) in *.
  exists (Nat.min (length s - 1) (reached (path s) z)), row'. split; [auto|]. split; [eapply all_length; eauto|]. split; [destruct s; [contradiction|cbn; lia]|]. split; [|split].
  - intros i zi Hi Hzi. apply (reached_between _ z PS i zi Hzi). lia.
  - intros zj Hj Hzj. assert (J : Nat.min (length s - 1) (reached (path s) z) = reached (path s) z) by lia. rewrite J in *.
    apply Rnot_le_lt. intros G. apply (reached_between _ z PS _ zj Hzj) in G. lia.
  - intros m y w Hy Hw. destruct (all_nth _ _ _ A m y Hy) as (w' & W & P). assert (w' = w) by congruence. subst w'. eapply place_spec; eauto.
Qed.
(** on the axis: the segment of element j ends at vertex j and starts at vertex j-1, so the drawn axis is the polyline of
    the vertices without gaps *)
Theorem C63_vertices s fr j w : place s fr j (V 0 0 (List.nth j (path s) 0)) w -> nth_error (LayoutModel.origins s) j = Some w.
Proof.
  intros (p & z & o & P & Z & O & W & _). rewrite (nth_error_nth _ _ _ Z) in W. rewrite O. f_equal. rewrite W. cbn [vx vy vz]. vec_ring.
Qed.
Theorem C63_vertices_start s fr i w : (S i < length s)%nat -> place s fr (S i) (V 0 0 (List.nth i (path s) 0)) w -> nth_error (LayoutModel.origins s) i = Some w.
Proof.
  intros L (p & z & o & P & Z & O & W & ST). destruct (C41_origins s i) as (Oi & Pi & _); [lia|].
  destruct (ST i _ _ eq_refl Pi Oi) as [_ E]. rewrite (nth_error_nth _ _ _ Pi) in E. rewrite Oi. f_equal. rewrite E. cbn [vx vy vz]. 
  set (v := vsum _). set (r := rsum _). vec_ring.
Qed.
(** points of one segment keep their distances *)
Theorem C63_isometry s fr j y1 y2 w1 w2 : frames_of s fr -> place s fr j y1 w1 -> place s fr j y2 w2 -> norm (vsub3 w1 w2) = norm (vsub3 y1 y2).
Proof.
  intros F (p & z & o & P & Z & O & W1 & _) (p' & z' & o' & P' & Z' & O' & W2 & _). rewrite P in P'. rewrite Z in Z'. rewrite O in O'.
  injection P' as <-. injection Z' as <-. injection O' as <-. destruct (F j p P) as (NA & NB & ND & AB & AD & BD & _). set (a := fst (fr j)) in *. set (b := snd (fr j)) in *. set (d := p_direction p) in *.
  unfold norm. f_equal. assert (QA : dot a a = 1) by (rewrite <- norm_sqr, NA; ring). assert (QB : dot b b = 1) by (rewrite <- norm_sqr, NB; ring). assert (QD : dot d d = 1) by (rewrite <- norm_sqr, ND; ring).
  replace (vsub3 w1 w2) with (vadd3 (vmul3 (vz y1 - vz y2) d) (vadd3 (vmul3 (vx y1 - vx y2) a) (vmul3 (vy y1 - vy y2) b))) by (subst w1 w2; vec_ring).
  rewrite !dot_add_l, !dot_add_r, !dot_scale_l, !dot_scale_r, (dot_comm d a), (dot_comm d b), (dot_comm b a), QA, QB, QD, AB, AD, BD. unfold dot, vsub3. cbn [vx vy vz]. ring.
Qed.
(** the unfolded axis is as long as the drawn one: no two points of the axis get further apart *)
Theorem C63_axis_length s fr j k y1 y2 w1 w2 zj : Forall built s -> frames_of s fr -> vx y1 = 0 -> vy y1 = 0 -> vx y2 = 0 -> vy y2 = 0 ->
  (j < k)%nat -> nth_error (path s) j = Some zj -> vz y1 <= zj -> (forall i zi, k = S i -> nth_error (path s) i = Some zi -> zi <= vz y2) ->
  place s fr j y1 w1 -> place s fr k y2 w2 -> norm (vsub3 w2 w1) <= vz y2 - vz y1.
Proof.
  intros B F X1 Y1 X2 Y2 JK Zj L1 L2 (p & z & o & P & Z & O & W1 & _) (p' & z' & o' & P' & Z' & O' & W2 & ST).
  assert (z = zj) by congruence. subst zj. destruct k as [|k]; [lia|].
  assert (KL : (S k < length s)%nat) by (apply nth_error_Some; congruence).
  destruct (C41_origins s k) as (Ok & Pk & _); [lia|]. destruct (ST k _ _ eq_refl Pk Ok) as [_ E]. specialize (L2 k _ eq_refl Pk).
  set (ok := vsum _) in *. set (pk := rsum _) in *.
  assert (BD : norm (vsub3 ok o) <= pk - z). { eapply (C41_bound s j k); eauto; [|lia]. eapply Forall_impl; [|exact B]. intros; apply built_normal; auto. }
  destruct (F j p P) as (_ & _ & N1 & _). destruct (F (S k) p' P') as (_ & _ & N2 & _).
  rewrite X1, Y1 in W1. rewrite X2, Y2 in E.
  replace (vsub3 w2 w1) with (vadd3 (vmul3 (vz y2 - pk) (p_direction p')) (vadd3 (vsub3 ok o) (vmul3 (z - vz y1) (p_direction p)))) by (rewrite E, W1; clear; vec_ring).
  eapply Rle_trans; [apply norm_triangle|]. eapply Rle_trans; [apply Rplus_le_compat_l, norm_triangle|]. rewrite !norm_scale, N1, N2, !Rabs_right by lra. lra.
Qed.
(** the drawn paraxial rays: at vertex k the ray of height h is drawn at the vertex, h aside along both
    transverse directions of the outgoing segment *)
Theorem C63_paraxial s ys : s <> [] -> Forall built s -> Forall axis_clear s -> length ys = length s -> exists fr, frames_of s fr /\
  exists out, paraxial_lines s ys = Some out /\ length out = length s /\
  forall k row, nth_error ys k = Some row -> exists row' o, nth_error out k = Some row' /\ nth_error (LayoutModel.origins s) k = Some o /\
    forall m h w, nth_error row m = Some h -> nth_error row' m = Some w ->
      let j := Nat.min (length s - 1) (S k) in w = vadd3 o (vmul3 h (vadd3 (fst (fr j)) (snd (fr j)))).
Proof.
  intros NE B C LY. exists (model_frames s). split; [apply model_frames_ok; auto|]. unfold paraxial_lines, trace_from_axis.
  set (rows := map _ _). assert (LR : length rows = length s) by (unfold rows; rewrite map_length, combine_length, path_length; lia).
  destruct (pieces_total s (vsplit 0 (seq 0 (length s)) rows) 0 NE B) as [out HO]. exists out. split; [auto|].
  assert (SS : StronglySorted le (0%nat :: seq 0 (length s))).
  { constructor; [|apply Forall_forall; intros; lia]. clear. generalize 0%nat. induction (length s) as [|n IH]; intros a; cbn; constructor; [auto|]. apply Forall_forall. intros x Hx. apply in_seq in Hx. lia. }
  destruct (pieces_rows s _ 0 0 rows out SS HO) as [L N]. split; [lia|]. intros k row Hk.
  assert (KL : (k < length s)%nat) by (rewrite <- LY; apply nth_error_Some; congruence).
  destruct (C41_origins s k KL) as (Ok & Pk & _). set (ok := vsum _) in *. set (pk := rsum _) in *.
  assert (RK : nth_error rows k = Some (map (fun h => V h h pk) row)).
  { unfold rows. rewrite nth_error_map. assert (CN : forall (l : list (list R)) (l' : list R) k a b, nth_error l k = Some a -> nth_error l' k = Some b -> nth_error (combine l l') k = Some (a, b)).
    { clear. induction l as [|x l IH]; intros [|x' l'] [|k] a b H1 H2; try discriminate; cbn in *; [congruence|auto]. }
    rewrite (CN _ _ _ _ _ Hk Pk). reflexivity. }
  destruct (N k _ RK) as (row' & Hr & (e & z & o & E & Z & O & A)). cbn [Nat.add] in *. cbv zeta in *.
  assert (BK : below (seq 0 (length s)) k = S k).
  { unfold below. clear - KL. assert (G : forall n a, length (filter (fun b => b <=? k)%nat (seq a n)) = (Nat.min n (S k - a))%nat).
    { induction n as [|n IH]; intros a; [auto|]. cbn [seq filter]. destruct (Nat.leb_spec a k); cbn [length]; rewrite IH; lia. }
    rewrite G. lia. }
  rewrite BK in *. exists row', ok. split; [auto|]. split; [auto|]. intros m h w Hh Hw.
  destruct (all_nth _ _ _ A m (V h h pk)) as (w' & W & P); [rewrite nth_error_map, Hh; reflexivity|]. assert (w' = w) by congruence. subst w'.
  pose proof (place_spec s _ e z o _ w B C E Z O P) as (p & z' & o' & P1 & P2 & P3 & W1 & W2). cbn [vx vy vz] in W1, W2.
  set (a := fst _) in *. set (b := snd _) in *. rewrite Z in P2. injection P2 as <-. rewrite O in P3. injection P3 as <-.
  destruct (Nat.lt_ge_cases (S k) (length s)) as [KS|KS].
  - replace (Nat.min (length s - 1) (S k)) with (S k) in * by lia. destruct (W2 k _ _ eq_refl Pk Ok) as [_ ->]. clearbody ok pk a b. vec_ring.
  - replace (Nat.min (length s - 1) (S k)) with k in * by lia. assert (ok = o) by congruence. assert (pk = z) by congruence. clearbody ok pk. subst ok pk. rewrite W1. clearbody a b. vec_ring.
Qed.

(** * C64 *)
(** height of a point along the cut axis and across it *)
Definition height (axis : nat) (y : vec) : R := match axis with O => vx y | _ => vy y end.
Definition across (axis : nat) (y : vec) : R := match axis with O => vy y | _ => vx y end.
Lemma sag_shift s p z g : surface_sag s p = Some g -> surface_sag s (V (vx p) (vy p) z) = Some (g - vz p + z).
Proof.
  unfold surface_sag. cbn [vz]. change (r2_of (V (vx p) (vy p) z)) with (r2_of p). destruct (Req_EM_T (s_c s) 0).
  - destruct (s_asph s); intros [= <-]; f_equal; ring.
  - intros H. destruct (fsqrt _) as [w|]; [|discriminate H]. cbn [obind] in *. destruct (fdiv _ _) as [q|]; [|discriminate H]. cbn [obind] in *. destruct (s_asph s); injection H as <-; f_equal; ring.
Qed.
Lemma linspace_ends a b n : (2 <= n)%nat -> nth_error (linspace a b n) 0 = Some a /\ nth_error (linspace a b n) (n - 1) = Some b.
Proof.
  destruct n as [|[|n]]; intros H; [lia|lia|]. unfold linspace. assert (P : INR (S n) <> 0) by (apply not_0_INR; lia). split.
  - cbn [seq map nth_error]. f_equal. change (INR 0) with 0. ring.
  - rewrite nth_error_map. replace (S (S n) - 1)%nat with (S n) by lia.
    assert (SN : nth_error (seq 0 (S (S n))) (S n) = Some (S n)).
    { rewrite (nth_error_nth' _ 0%nat) by (rewrite seq_length; lia). rewrite seq_nth by lia. auto. }
    rewrite SN. cbn [option_map]. f_equal. field. auto.
Qed.
(** the cut of a surface with a material consists of points of the surface in the cut plane, from rim to rim *)
Theorem C64_cut e axis points c rad m s : e_kind e = Sph (Some m) s -> e_radius e = Some rad -> surface_cut e axis points = Some c ->
  length c = points /\ Forall (fun y => surface_sag s y = Some 0 /\ across axis y = 0) c /\
  ((2 <= points)%nat -> (exists y, hd_error c = Some y /\ height axis y = - rad) /\ exists y, nth_error c (points - 1) = Some y /\ height axis y = rad).
Proof.
  intros K R H. unfold surface_cut in H. rewrite R, K in H. cbn [obind] in H. pose proof (all_nth _ _ _ H) as N. pose proof (all_length _ _ _ H) as L.
  assert (LL : length (linspace (- rad) rad points) = points). { unfold linspace. destruct points as [|[|n]]; [auto|auto|]. rewrite map_length, seq_length. auto. }
  assert (PT : forall h y, (do g <- surface_sag s (along axis h 0); Some (along axis h (- g))) = Some y -> surface_sag s y = Some 0 /\ across axis y = 0 /\ height axis y = h).
  { intros h y Hy. destruct (surface_sag s (along axis h 0)) as [g|] eqn:G; [|discriminate Hy]. injection Hy as <-.
    apply (sag_shift s _ (- g)) in G. destruct axis; cbn [along vx vy vz across height] in *; (split; [rewrite G; f_equal; ring|auto]). }
  split; [congruence|]. split.
  - apply Forall_forall. intros y Hy. apply In_nth_error in Hy. destruct Hy as [k Hk].
    destruct (nth_error (linspace (- rad) rad points) k) as [h|] eqn:HK.
    + destruct (N k h HK) as (y' & Hy' & P). assert (y' = y) by congruence. subst y'. destruct (PT h y P) as (A & B & _). auto.
    + apply nth_error_None in HK. assert (k < length c)%nat by (apply nth_error_Some; congruence). lia.
  - intros P2. destruct (linspace_ends (- rad) rad points P2) as [E1 E2]. split.
    + destruct (N _ _ E1) as (y & Hy & P). exists y. split; [destruct c; [discriminate Hy|exact Hy]|]. destruct (PT _ _ P) as (_ & _ & G). exact G.
    + destruct (N _ _ E2) as (y & Hy & P). exists y. split; [exact Hy|]. destruct (PT _ _ P) as (_ & _ & G). exact G.
Qed.
(** a curved surface without material, such as a curved image, is drawn as a plane *)
Theorem C64_cut_refuted : exists e s c, e_kind e = Sph None s /\ surface_cut e 1 31 = Some c /\ exists y, In y c /\ surface_sag s y <> Some 0.
Proof.
  exists (El (Placement 0 ez v0 v0 true true None None) (Some 1) (Sph None (Surf 1 0 None false))). eexists. eexists. split; [reflexivity|].
  split; [cbn; reflexivity|]. exists (V 0 1 0). split; [cbn; auto|]. unfold surface_sag. cbn [s_c s_k s_asph vz].
  destruct (Req_EM_T 1 0); [lra|]. unfold r2_of. cbn [vx vy]. replace (1 - (1 + 0) * 1 ^ 2 * (0 * 0 + 1 * 1)) with 0 by ring. rewrite fsqrt_some by lra. cbn [obind]. rewrite sqrt_0.
  rewrite fdiv_some by lra. cbn [obind]. intros H. apply some_inj in H. lra.
Qed.

(** the rim of a solid from end a to end b: one corner c, joined to both by lines along and across the axis, at the
    outer one of the two heights *)
Definition rim (outer : R -> R -> R) (a c b : R * R) : Prop :=
  fst c = outer (fst a) (fst b) /\ (fst c = fst a /\ snd c = snd b \/ fst c = fst b /\ snd c = snd a).
Definition solid_outline (p q o : profile) : Prop := exists p0 pn q0 qn cu cl,
  hd_error p = Some p0 /\ hd_error (rev p) = Some pn /\ hd_error q = Some q0 /\ hd_error (rev q) = Some qn /\
  o = p ++ [cu] ++ rev q ++ [cl; p0] /\ rim Rmax pn cu qn /\ rim Rmin q0 cl p0.
Lemma closed_solid p q o : closed_outline p q = Some o -> solid_outline p q o.
Proof.
  unfold closed_outline. intros H. destruct (hd_error p) as [p0|] eqn:E1; [|discriminate H]. cbn [obind] in H. destruct (hd_error (rev p)) as [pn|] eqn:E2; [|discriminate H]. cbn [obind] in H.
  destruct (hd_error q) as [q0|] eqn:E3; [|discriminate H]. cbn [obind] in H. destruct (hd_error (rev q)) as [qn|] eqn:E4; [|discriminate H]. cbn [obind] in H. injection H as <-.
  exists p0, pn, q0, qn. eexists. eexists. repeat (split; [eassumption || reflexivity|]). split.
  - unfold rim. destruct (Rlt_dec (fst pn) (fst qn)); cbn [fst snd]; (split; [unfold Rmax; destruct (Rle_dec _ _); lra|auto]).
  - unfold rim. destruct (Rlt_dec (fst q0) (fst p0)); cbn [fst snd]; (split; [unfold Rmin; destruct (Rle_dec _ _); lra|auto]).
Qed.
Lemma closed_total p q : p <> [] -> q <> [] -> exists o, closed_outline p q = Some o.
Proof.
  intros P Q. unfold closed_outline. assert (R : forall l : profile, l <> [] -> exists x, hd_error (rev l) = Some x).
  { intros l N. destruct (rev l) as [|x r] eqn:E; [|cbn; eauto]. exfalso. apply N. rewrite <- (rev_involutive l), E. reflexivity. }
  destruct (R p P) as [pn ->], (R q Q) as [qn ->]. destruct p; [contradiction|]. destruct q; [contradiction|]. cbn. eauto.
Qed.
(** such an outline is a closed line *)
Theorem C64_closed p q o : closed_outline p q = Some o -> solid_outline p q o /\ hd_error o = hd_error (rev o) /\ hd_error o <> None.
Proof.
  intros H. apply closed_solid in H. split; [exact H|]. destruct H as (p0 & pn & q0 & qn & cu & cl & E1 & E2 & E3 & E4 & -> & _). destruct p as [|x p]; [discriminate E1|]. injection E1 as ->.
  replace ((p0 :: p) ++ [cu] ++ rev q ++ [cl; p0]) with (((p0 :: p) ++ [cu] ++ rev q ++ [cl]) ++ [p0]) by (rewrite <- !app_assoc; reflexivity).
  rewrite rev_app_distr. cbn. split; [reflexivity|discriminate].
Qed.
(** drawing always succeeds on non-empty profiles; each line drawn is the profile of an element or the closed outline
    between two of them *)
Lemma outlines_sound l : forall pend r, outlines l pend = Some r -> forall o, In o r ->
  (exists e, In e l /\ o = d_profile e) \/ pend = Some o \/
  (exists p e, (pend = Some p \/ exists e', In e' l /\ p = d_profile e') /\ In e l /\ solid_outline p (d_profile e) o).
Proof.
  induction l as [|e l IH]; intros pend r H o Ho.
  - cbn in H. injection H as <-. destruct pend as [p|]; [|destruct Ho]. destruct Ho as [->|[]]. auto.
  - cbn [outlines] in H.
    assert (LIFT : forall next r', outlines l next = Some r' -> (next = None \/ next = Some (d_profile e) \/ next = pend) -> In o r' ->
      (exists e0, In e0 (e :: l) /\ o = d_profile e0) \/ pend = Some o \/ (exists p e0, (pend = Some p \/ exists e', In e' (e :: l) /\ p = d_profile e') /\ In e0 (e :: l) /\ solid_outline p (d_profile e0) o)).
    { intros next r' Hr Hn Ho'. destruct (IH next r' Hr o Ho') as [(e0 & I & ->)|[N|(p & e0 & [N|(e' & I' & P)] & I & S)]].
      - left. exists e0. cbn. auto.
      - destruct Hn as [->|[->| ->]]; [discriminate N|injection N as <-; left; exists e; cbn; auto|auto].
      - right; right. exists p, e0. split; [|cbn; auto]. destruct Hn as [->|[->| ->]]; [discriminate N|injection N as <-; right; exists e; cbn; auto|auto].
      - right; right. exists p, e0. split; [right; exists e'; cbn; auto|cbn; auto]. }
    destruct (d_mat e) as [[solid mirror]|].
    + destruct pend as [p|].
      * destruct (closed_outline p (d_profile e)) as [o1|] eqn:CO; [|discriminate H]. cbn [obind] in H. match type of H with context [outlines l ?n] => set (next := n) in * end.
        destruct (outlines l next) as [r'|] eqn:E; [|discriminate H]. injection H as <-. destruct Ho as [<-|Ho].
        -- right; right. exists p, e. split; [auto|]. split; [cbn; auto|]. apply closed_solid; auto.
        -- eapply LIFT; eauto. unfold next. destruct (_ || _)%bool; auto.
      * match type of H with context [outlines l ?n] => set (next := n) in * end. destruct (outlines l next) as [r'|] eqn:E; [|discriminate H]. cbn [obind] in H.
        assert (NX : next = None \/ next = Some (d_profile e) \/ next = None) by (unfold next; destruct (_ || _)%bool; auto).
        destruct (negb solid || mirror)%bool; injection H as <-; [destruct Ho as [<-|Ho]; [left; exists e; cbn; auto|]|]; eapply LIFT; eauto.
    + destruct (outlines l pend) as [r'|] eqn:E; [|discriminate H]. injection H as <-. destruct Ho as [<-|Ho]; [left; exists e; cbn; auto|]. eapply LIFT; eauto.
Qed.
Lemma outlines_total l : forall pend, Forall (fun e => d_profile e <> []) l -> pend <> Some [] -> exists r, outlines l pend = Some r.
Proof.
  induction l as [|e l IH]; intros pend F P; [cbn; eauto|]. inversion F as [|? ? F1 F2]; subst. cbn [outlines].
  destruct (d_mat e) as [[solid mirror]|].
  - assert (NX : forall b : bool, (if b then Some (d_profile e) else None) <> Some []) by (intros []; congruence).
    destruct pend as [p|].
    + destruct (closed_total p (d_profile e)) as [o ->]; [congruence|auto|]. cbn [obind]. destruct (IH _ F2 (NX (solid || (true && mirror))%bool)) as [r ->]. cbn. eauto.
    + destruct (IH _ F2 (NX (solid || (false && mirror))%bool)) as [r ->]. cbn. destruct (_ || _)%bool; eauto.
  - destruct (IH pend F2 P) as [r ->]. cbn. eauto.
Qed.
Theorem C64_outlines l : Forall (fun e => d_profile e <> []) l -> exists r, surfaces_cut l = Some r /\
  forall o, In o r -> (exists e, In e l /\ o = d_profile e) \/ exists e1 e2, In e1 l /\ In e2 l /\ solid_outline (d_profile e1) (d_profile e2) o.
Proof.
  intros F. destruct (outlines_total l None F) as [r H]; [discriminate|]. exists r. split; [exact H|]. intros o Ho.
  destruct (outlines_sound l None r H o Ho) as [L|[L|(p & e & [L|(e' & I & ->)] & I2 & S)]]; [auto|discriminate L|discriminate L|]. right. eauto 6.
Qed.
(** the outline of every solid is there: between a solid and the next surface with a material *)
Lemma solid_next mid : forall p e2 post r, Forall (fun e => d_mat e = None) mid -> d_mat e2 <> None -> outlines (mid ++ e2 :: post) (Some p) = Some r ->
  exists o, closed_outline p (d_profile e2) = Some o /\ In o r.
Proof.
  induction mid as [|e mid IH]; intros p e2 post r F M H; cbn [app outlines] in H.
  - destruct (d_mat e2) as [[so mi]|]; [|contradiction]. destruct (closed_outline p (d_profile e2)) as [o|] eqn:E; [|discriminate H]. cbn [obind] in H.
    destruct (outlines post _) as [r'|]; [|discriminate H]. injection H as <-. exists o. split; [auto|left; auto].
  - inversion F as [|? ? F1 F2]; subst. rewrite F1 in H. destruct (outlines _ _) as [r'|] eqn:E; [|discriminate H]. injection H as <-.
    destruct (IH p e2 post r' F2 M E) as (o & C & I). exists o. split; [auto|right; auto].
Qed.
Theorem C64_solids_closed pre e1 mid e2 post mirror r : d_mat e1 = Some (true, mirror) -> Forall (fun e => d_mat e = None) mid -> d_mat e2 <> None ->
  surfaces_cut (pre ++ e1 :: mid ++ e2 :: post) = Some r -> exists o, In o r /\ solid_outline (d_profile e1) (d_profile e2) o.
Proof.
  intros M1 F M2. unfold surfaces_cut. generalize (@None profile). revert r. induction pre as [|e pre IH]; intros r pend H; cbn [app outlines] in H.
  - rewrite M1 in H. destruct pend as [p|].
    + destruct (closed_outline p (d_profile e1)) as [o1|]; [|discriminate H]. cbn [obind orb] in H. destruct (outlines _ _) as [r'|] eqn:E; [|discriminate H]. injection H as <-.
      destruct (solid_next mid _ e2 post r' F M2 E) as (o & C & I). exists o. split; [right; auto|apply closed_solid; auto].
    + cbn [orb] in H. destruct (outlines _ _) as [r'|] eqn:E; [|discriminate H]. cbn [obind] in H.
      destruct (solid_next mid _ e2 post r' F M2 E) as (o & C & I). destruct (negb true || mirror)%bool; injection H as <-; exists o; (split; [cbn; auto|apply closed_solid; auto]).
  - destruct (d_mat e) as [[so mi]|].
    + destruct pend as [p|].
      * destruct (closed_outline p (d_profile e)) as [o1|]; [|discriminate H]. cbn [obind] in H. destruct (outlines _ _) as [r'|] eqn:E; [|discriminate H]. injection H as <-.
        destruct (IH _ _ E) as (o & I & S). exists o. cbn. auto.
      * destruct (outlines _ _) as [r'|] eqn:E; [|discriminate H]. cbn [obind] in H. destruct (IH _ _ E) as (o & I & S). destruct (negb so || mi)%bool; injection H as <-; exists o; cbn; auto.
    + destruct (outlines _ _) as [r'|] eqn:E; [|discriminate H]. injection H as <-. destruct (IH _ _ E) as (o & I & S). exists o. cbn. auto.
Qed.
(** nothing is left out: every profile is part of some line, in one of both directions *)
Definition shows (o p : profile) : Prop := exists a b, o = a ++ p ++ b \/ o = a ++ rev p ++ b.
Lemma shows_self p : shows p p. Proof. exists [], []. left. now rewrite app_nil_r. Qed.
Lemma shows_solid p q o : closed_outline p q = Some o -> shows o p /\ shows o q.
Proof.
  intros H. apply closed_solid in H. destruct H as (p0 & pn & q0 & qn & cu & cl & _ & _ & _ & _ & -> & _). split.
  - exists [], ([cu] ++ rev q ++ [cl; p0]). left. reflexivity.
  - exists (p ++ [cu]), [cl; p0]. right. rewrite <- !app_assoc. reflexivity.
Qed.
Lemma outlines_complete l : forall pend r, outlines l pend = Some r ->
  (forall p, pend = Some p -> exists o, In o r /\ shows o p) /\ forall e, In e l -> exists o, In o r /\ shows o (d_profile e).
Proof.
  induction l as [|e l IH]; intros pend r H; cbn [outlines] in H.
  - injection H as <-. split; [intros p ->; exists p; split; [cbn; auto|apply shows_self]|intros e []].
  - destruct (d_mat e) as [[so mi]|].
    + destruct pend as [p|].
      * destruct (closed_outline p (d_profile e)) as [o1|] eqn:CO; [|discriminate H]. cbn [obind] in H. destruct (outlines l _) as [r'|] eqn:E; [|discriminate H]. injection H as <-.
        destruct (shows_solid _ _ _ CO) as [S1 S2]. destruct (IH _ _ E) as [_ IH2]. split.
        -- intros p' [= <-]. exists o1. cbn. auto.
        -- intros e' [<-|I]; [exists o1; cbn; auto|]. destruct (IH2 e' I) as (o & Io & So). exists o. cbn. auto.
      * destruct (outlines l _) as [r'|] eqn:E; [|discriminate H]. cbn [obind] in H. destruct (IH _ _ E) as [IH1 IH2]. split; [intros p D; discriminate D|].
        destruct so.
        -- cbn [orb] in IH1. destruct (IH1 _ eq_refl) as (o1 & I1 & S1). intros e' [<-|I]; destruct (negb true || mi)%bool; injection H as <-;
             [exists o1; cbn; auto|exists o1; cbn; auto| |]; destruct (IH2 e' I) as (o & Io & So); exists o; cbn; auto.
        -- cbn [negb orb] in H. injection H as <-. intros e' [<-|I]; [exists (d_profile e); split; [cbn; auto|apply shows_self]|]. destruct (IH2 e' I) as (o & Io & So); exists o; cbn; auto.
    + destruct (outlines l pend) as [r'|] eqn:E; [|discriminate H]. injection H as <-. destruct (IH _ _ E) as [IH1 IH2]. split.
      * intros p Hp. destruct (IH1 p Hp) as (o & Io & So). exists o. cbn. auto.
      * intros e' [<-|I]; [exists (d_profile e); split; [cbn; auto|apply shows_self]|]. destruct (IH2 e' I) as (o & Io & So); exists o; cbn; auto.
Qed.
Theorem C64_complete l r e : surfaces_cut l = Some r -> In e l -> exists o, In o r /\ shows o (d_profile e).
Proof. intros H. apply (outlines_complete l None r H). Qed.
(** in a system each profile lies on its surface, placed and tilted at the element's origin *)
Lemma drawn_nth axis points es : forall pos l, drawn_of axis points pos es = Some l -> length l = length es /\
  forall k e d o, nth_error es k = Some e -> nth_error l k = Some d -> nth_error (ElementModel.cumsum3 pos (map (fun e => p_offset (e_place e)) es)) k = Some o ->
    profile_of axis points o e = Some (d_profile d) /\ d_mat d = match e_kind e with Sph (Some m) _ => Some (m_solid m, m_mirror m) | _ => None end.
Proof.
  induction es as [|e es IH]; intros pos l H; cbn [drawn_of] in H.
  - injection H as <-. split; [auto|]. intros [|k]; discriminate.
  - destruct (profile_of _ _ _ e) as [p|] eqn:P; [|discriminate H]. cbn [obind] in H. destruct (drawn_of _ _ _ es) as [r|] eqn:E; [|discriminate H]. injection H as <-.
    destruct (IH _ _ E) as [L N]. split; [cbn; auto|]. intros [|k] e' d o He Hd Ho.
    + cbn in He, Hd, Ho. injection He as <-. injection Hd as <-. injection Ho as <-. auto.
    + cbn in He, Hd. cbn [map ElementModel.cumsum3] in Ho. cbv zeta in Ho. eapply N; eauto.
Qed.
Theorem C64_placed axis points es l : drawn_of axis points v0 es = Some l -> Forall (fun e => built (e_place e)) es -> length l = length es /\
  forall k e d o m s, nth_error es k = Some e -> nth_error l k = Some d -> nth_error (ElementModel.origins es) k = Some o -> e_kind e = Sph (Some m) s ->
    d_mat d = Some (m_solid m, m_mirror m) /\ length (d_profile d) = points /\
    Forall (fun pt => exists w y, pt = (height axis w, vz w) /\ PlacementModel.to_normal (e_place e) (vsub3 w o) = Some y /\ surface_sag s y = Some 0 /\ across axis y = 0) (d_profile d).
Proof.
  intros H B. destruct (drawn_nth _ _ _ _ _ H) as [L N]. split; [auto|]. intros k e d o m s He Hd Ho K. destruct (N k e d o He Hd Ho) as [P M].
  rewrite K in M. split; [auto|]. unfold profile_of in P. destruct (surface_cut e axis points) as [c|] eqn:C; [|discriminate P]. cbn [obind] in P.
  destruct (all _ c) as [ws|] eqn:A; [|discriminate P]. cbn [obind] in P. injection P as <-.
  assert (R : exists rad, e_radius e = Some rad) by (unfold surface_cut in C; destruct (e_radius e); [eauto|discriminate C]). destruct R as [rad R].
  destruct (C64_cut e axis points c rad m s K R C) as (LC & FC & _).
  split; [rewrite map_length, (all_length _ _ _ A); auto|].
  apply Forall_forall. intros pt Hpt. apply in_map_iff in Hpt. destruct Hpt as (w & <- & Hw). apply In_nth_error in Hw. destruct Hw as [i Hi].
  destruct (nth_error c i) as [y|] eqn:Y.
  2: { apply nth_error_None in Y. assert (i < length ws)%nat by (apply nth_error_Some; congruence). rewrite (all_length _ _ _ A) in H0. lia. }
  destruct (all_nth _ _ _ A i y Y) as (w' & W & F). assert (w' = w) by congruence. subst w'.
  exists w, y. split; [destruct axis; reflexivity|]. rewrite Forall_forall in FC. destruct (FC y (nth_error_In _ _ Y)) as [S0 A0]. split; [|auto].
  assert (BE : built (e_place e)) by (rewrite Forall_forall in B; apply B; eapply nth_error_In; eauto).
  destruct BE as (di & dr & an & of & hi & q & I & RU). destruct (C08_frames_rigid di dr an of hi) as (q' & p' & I' & RU' & _ & FN & _). rewrite I in I'. injection I' as <-. rewrite RU in RU'. injection RU' as <-.
  destruct FN as (FN & _). destruct (FN y) as (v & V1 & V2 & _). rewrite V1 in F. injection F as <-.
  replace (vsub3 (vadd3 o v) o) with v by vec_ring. exact V2.
Qed.

(** * examples *)
(** an axis folded by 36.9 degrees after the first vertex *)
Lemma folded_system : exists s, length s = 2%nat /\ Forall built s /\ Forall axis_clear s /\ path s = [0; 5] /\ LayoutModel.origins s = [V 0 0 0; V 0 3 4].
Proof.
  destruct (update_spec 0 ez v0) as (p0 & U0 & _ & _ & _ & D0 & u0 & HU0 & OF0 & DU0).
  destruct (update_spec 5 (V 0 3 4) v0) as (p1 & U1 & _ & _ & _ & D1 & u1 & HU1 & OF1 & DU1).
  assert (S5 : norm (V 0 3 4) = 5). { unfold norm, dot; cbn [vx vy vz]. replace (0 * 0 + 3 * 3 + 4 * 4) with (5 * 5) by ring. apply sqrt_square. lra. }
  assert (S1 : norm ez = 1). { apply norm_unit. unfold dot, ez; cbn. ring. }
  assert (E1 : u1 = V 0 (3/5) (4/5)). { unfold unit_or_axis in HU1. rewrite S5 in HU1. destruct (Req_EM_T 5 0); [lra|]. rewrite !fdiv_some in HU1 by lra. cbn in HU1. injection HU1 as <-. f_equal. lra. }
  assert (E0 : u0 = ez). { unfold unit_or_axis in HU0. rewrite S1 in HU0. destruct (Req_EM_T 1 0); [lra|]. rewrite !fdiv_some in HU0 by lra. cbn in HU0. injection HU0 as <-. unfold ez. f_equal; lra. }
  subst u0 u1. destruct (Rlt_dec 0 0); [lra|]. destruct (Rlt_dec 5 0); [lra|].
  exists [p0; p1]. split; [auto|]. split; [|split; [|split]].
  - repeat constructor; [exists 0, ez, v0, None, [], p0|exists 5, (V 0 3 4), v0, None, [], p1]; unfold init; [rewrite U0|rewrite U1]; auto.
  - constructor; [left; auto|]. constructor; [|constructor]. right; right. rewrite DU1. cbn [vy]. rewrite Rabs_right; lra.
  - unfold path. cbn. rewrite D0, D1, Rabs_R0, Rabs_right by lra. f_equal; [lra|]. f_equal. lra.
  - unfold LayoutModel.origins. cbn [map LayoutModel.cumsum3]. rewrite OF0, OF1. unfold vadd3, vmul3, v0, ez. cbn [vx vy vz]. f_equal; [f_equal; lra|]. f_equal. f_equal; lra.
Qed.
(** half way between the vertices *)
Example C63_example : exists s fr out, s <> [] /\ Forall built s /\ Forall axis_clear s /\ frames_of s fr /\
  trace_from_axis_auto s 0 [[V 0 0 (-1)]; [V 0 0 (5/2)]; [V 0 0 10]] = Some out /\ nth_error out 1 = Some [V 0 (3/2) 2].
Proof.
  destruct folded_system as (s & L & B & C & P & O). assert (NE : s <> []) by (destruct s; [discriminate L|discriminate]).
  destruct (C63_from_axis s NE B C) as (fr & F & H). destruct (H 0%nat [[V 0 0 (-1)]; [V 0 0 (5/2)]; [V 0 0 10]] [-1; 5/2; 10]) as (out & T & LO & N).
  - reflexivity.
  - repeat constructor; lra.
  - exists s, fr, out. split; [auto|]. split; [auto|]. split; [auto|]. split; [auto|]. split; [auto|].
    destruct (N 1%nat [V 0 0 (5/2)] (5/2) eq_refl eq_refl) as (j & row' & R & LR & J & J1 & J2 & W).
    assert (j = 1%nat). { destruct j as [|[|j]]; [|auto|lia]. exfalso. specialize (J2 0). rewrite P in J2. assert (5/2 < 0); [|lra]. apply J2; [lia|auto]. }
    subst j. destruct row' as [|w [|]]; try discriminate LR. specialize (W 0%nat _ w eq_refl eq_refl). destruct W as (p & z & o & P1 & P2 & P3 & W & _).
    rewrite P in P2. rewrite O in P3. injection P2 as <-. injection P3 as <-. rewrite R. f_equal. f_equal.
    assert (D : p_direction p = V 0 (3/5) (4/5)).
    { assert (BP : normal_form p) by (apply built_normal; rewrite Forall_forall in B; apply B; eapply nth_error_In; eauto). destruct BP as (D0 & _ & OF).
      destruct s as [|p0 [|p1 [|]]]; try discriminate L. injection P1 as ->. unfold path in P. cbn in P. unfold LayoutModel.origins in O. cbn in O. injection P as P4 P5. injection O as O1 O2 O3 O4 O5 O6.
      assert (Q : p_distance p = 5) by lra. rewrite OF, Q in *. cbn [vmul3 vx vy vz] in *. destruct (p_direction p) as [a b c]. cbn [vx vy vz] in *. f_equal; lra. }
    rewrite W, D. unfold vadd3, vmul3. cbn [vx vy vz]. f_equal; field.
Qed.
Example C63_paraxial_example : exists s, s <> [] /\ Forall built s /\ Forall axis_clear s /\ length [[1; 0]; [1/2; 1]] = length s.
Proof. destruct folded_system as (s & L & B & C & _). exists s. split; [destruct s; discriminate|]. auto. Qed.
Example C63_axis_length_example : exists s fr y1 y2 w1 w2, Forall built s /\ frames_of s fr /\ place s fr 0 y1 w1 /\ place s fr 1 y2 w2 /\ vz y1 = -1 /\ vz y2 = 3 /\ nth_error (path s) 0 = Some 0.
Proof.
  destruct folded_system as (s & L & B & C & P & O). exists s, (model_frames s), (V 0 0 (-1)), (V 0 0 3).
  destruct (place_total s 0 B) as (e & z & o & E1 & E2 & E3 & T); [lia|]. destruct (place_total s 1 B) as (e' & z' & o' & E1' & E2' & E3' & T'); [lia|].
  destruct (place_point e z o (V 0 0 (-1))) as [w|] eqn:W; [|exfalso; eapply T; eauto]. destruct (place_point e' z' o' (V 0 0 3)) as [w'|] eqn:W'; [|exfalso; eapply T'; eauto].
  exists w, w'. split; [auto|]. split; [apply model_frames_ok; auto|]. split; [eapply place_spec; eauto|]. split; [eapply place_spec; eauto|]. rewrite P. auto.
Qed.
(** a plane with radius 2 and a singlet *)
Definition demo_glass : material := Material (fun _ => 3/2) false true.
Definition demo_surface (d c : R) : element := El (Placement d ez (V 0 0 d) v0 true true None None) (Some 3) (Sph (Some demo_glass) (Surf c 0 None false)).
Example C64_cut_example : exists c, surface_cut (demo_surface 0 (1/5)) 1 3 = Some c /\ nth_error c 2 = Some (V 0 3 1).
Proof.
  unfold surface_cut, demo_surface. cbn [e_radius e_kind obind linspace]. unfold surface_sag, along, r2_of. cbn [s_c s_k s_asph vx vy vz seq map all].
  change (INR 0) with 0. change (INR 1) with 1. change (INR 2) with 2. destruct (Req_EM_T (1/5) 0); [lra|].
  replace (1 - (1 + 0) * (1/5)^2 * (0 * 0 + (- (3) + 0 * ((3 - - (3)) / 2)) * (- (3) + 0 * ((3 - - (3)) / 2)))) with ((4/5) * (4/5)) by field.
  replace (1 - (1 + 0) * (1/5)^2 * (0 * 0 + (- (3) + 1 * ((3 - - (3)) / 2)) * (- (3) + 1 * ((3 - - (3)) / 2)))) with (1 * 1) by field.
  replace (1 - (1 + 0) * (1/5)^2 * (0 * 0 + (- (3) + 2 * ((3 - - (3)) / 2)) * (- (3) + 2 * ((3 - - (3)) / 2)))) with ((4/5) * (4/5)) by field.
  rewrite !fsqrt_some by lra. rewrite !sqrt_square by lra. cbn [obind]. rewrite !fdiv_some by lra. cbn [obind]. eexists. split; [reflexivity|]. cbn. f_equal. f_equal; field.
Qed.
(** stops, dummy planes and surfaces without material: a line across the vertex, from edge to edge *)
Theorem C64_cut_plain e axis points rad : e_radius e = Some rad -> (forall m s, e_kind e <> Sph (Some m) s) ->
  exists a b, surface_cut e axis points = Some [a; b] /\ vz a = 0 /\ vz b = 0 /\ across axis a = 0 /\ across axis b = 0 /\ height axis a = - rad /\ height axis b = rad.
Proof.
  intros R K. unfold surface_cut. rewrite R. cbn [obind]. destruct (e_kind e) as [|[m|] s] eqn:E; [|exfalso; apply (K m s); auto|]; do 2 eexists; (split; [reflexivity|]); destruct axis; cbn [along vx vy vz across height]; repeat split; auto.
Qed.
Example C64_cut_plain_example : surface_cut (El (e_place (demo_surface 0 0)) (Some 3) Plain) 1 9 = Some [V 0 (- (3)) 0; V 0 3 0].
Proof. reflexivity. Qed.
Definition demo_drawn : list drawn := [Drawn None [(-1, 0); (1, 0)]; Drawn (Some (true, false)) [(-2, 1); (0, 0); (2, 1)]; Drawn None [(-1, 2); (1, 2)]; Drawn (Some (false, false)) [(-3, 4); (0, 5); (3, 4)]].
Example C64_outlines_example : surfaces_cut demo_drawn = Some [[(-1, 0); (1, 0)]; [(-1, 2); (1, 2)];
  [(-2, 1); (0, 0); (2, 1); (3, 1); (3, 4); (0, 5); (-3, 4); (-3, 1); (-2, 1)]].
Proof.
  unfold surfaces_cut, demo_drawn. cbn. destruct (Rlt_dec (-3) (-2)); [|lra]. destruct (Rlt_dec 2 3); [|lra]. reflexivity.
Qed.
Example C64_placed_example : exists l, drawn_of 1 2 v0 [demo_surface 1 0] = Some l.
Proof.
  unfold drawn_of, profile_of, surface_cut, demo_surface. cbn. unfold surface_sag. cbn. destruct (Req_EM_T 0 0); [|lra]. cbn. eauto.
Qed.

Print Assumptions C63_from_axis.
Print Assumptions C63_vertices.
Print Assumptions C63_vertices_start.
Print Assumptions C63_isometry.
Print Assumptions C63_axis_length.
Print Assumptions C63_paraxial.
Print Assumptions C64_cut.
Print Assumptions C64_cut_refuted.
Print Assumptions C64_closed.
Print Assumptions C64_outlines.
Print Assumptions C64_solids_closed.
Print Assumptions C64_complete.
Print Assumptions C64_placed.
