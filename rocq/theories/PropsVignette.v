(** Property C117: clipping removes exactly the rays that miss an aperture, and smaller apertures pass fewer rays. *)
From Coq Require Import Reals List Lra Lia Psatz.
From Verif Require Import Base Vec RotModel RotProofs PlacementModel PlacementProofs ElementModel ElementProofs TraceProofs PropsElement PropsTrace PropsResolution.
Import ListNotations.
Open Scope R_scope.

(** ** Specification *)
(** the ray still has a direction behind element [i] *)
Definition passes (tr : list step) (i : nat) : Prop := exists s, nth_error tr i = Some s /\ st_u s <> None.
(** the ray meets element [e] no further from its vertex than the radius of its aperture *)
Definition hits (e : element) (s : step) : Prop := exists v, st_y s = Some v /\ forall r, e_radius e = Some r -> vx v * vx v + vy v * vy v <= r * r.
(** the same element with an aperture that is not larger *)
Definition stopped_down (e' e : element) : Prop := e_place e' = e_place e /\ e_kind e' = e_kind e /\
  forall r, e_radius e = Some r -> exists r', e_radius e' = Some r' /\ Rabs r' <= Rabs r.

(** ** Auxiliary *)
Lemma sys_firstn newton c l k : forall es y u n, sys_propagate newton (firstn k es) y u n l c = firstn k (sys_propagate newton es y u n l c).
Proof.
  induction k as [|k IH]; intros [|e es] y u n; try reflexivity. cbn [firstn sys_propagate].
  destruct (propagate newton e _ _ n l c) as [[[y1 u1] n1] t1]. cbn [firstn]. rewrite IH. reflexivity.
Qed.
Lemma sys_length newton c l : forall es y u n, length (sys_propagate newton es y u n l c) = length es.
Proof.
  induction es as [|e es IH]; intros y u n; [reflexivity|]. cbn [sys_propagate].
  destruct (propagate newton e _ _ n l c) as [[[y1 u1] n1] t1]. cbn [length]. rewrite IH. reflexivity.
Qed.
Lemma nth_firstn_lt {A} (l : list A) k : forall i, (i < k)%nat -> nth_error (firstn k l) i = nth_error l i.
Proof. revert l. induction k as [|k IH]; intros l i L; [lia|]. destruct l as [|a l]; [destruct i; reflexivity|]. destruct i; cbn; [reflexivity|]. apply IH. lia. Qed.
(** only the apertures differ: without clipping the traces are the same *)
Lemma unclipped newton l : forall es es' y u n, Forall2 (fun e' e => e_place e' = e_place e /\ e_kind e' = e_kind e) es' es ->
  sys_propagate newton es' y u n l false = sys_propagate newton es y u n l false.
Proof.
  intros es es' y u n F. revert y u n. induction F as [|e' e es' es (P & K) _ IH]; intros y u n; [reflexivity|]. cbn [sys_propagate].
  assert (Q : forall y i, propagate newton e' y i n l false = propagate newton e y i n l false) by (intros; unfold propagate; rewrite K; reflexivity).
  rewrite Q, P. destruct (propagate newton e _ _ n l false) as [[[y1 u1] n1] t1]. rewrite IH. reflexivity.
Qed.

(** ** C117: with clipping a ray gets through to element [i] exactly if it does so without clipping and meets all elements
    from 1 to [i] inside their apertures; its whole path is then the one without clipping *)
Theorem C117_clipped newton es y u n l i : (i < length es)%nat ->
  let free := geo_trace newton es y u n l false in
  passes (geo_trace newton es y u n l true) i <->
  passes free i /\ forall j e s, (1 <= j <= i)%nat -> nth_error es j = Some e -> nth_error free j = Some s -> hits e s.
Proof.
  intros L free. split.
  - intros (s & S & U). pose proof (C15_clip_conservative newton es y u n l i s S U) as FS. split; [exists s; auto|].
    intros j e sj J E SJ.
    destruct (nth_error (geo_trace newton es y u n l true) j) as [cj|] eqn:CJ.
    2:{ exfalso. apply nth_error_None in CJ. assert (X : (i < length (geo_trace newton es y u n l true))%nat) by (apply nth_error_Some; congruence). lia. }
    destruct (C15_valid_inside newton es y u n l j i cj s e J CJ S E U) as (p & P & R).
    assert (UJ : st_u cj <> None).
    { destruct (Nat.eq_dec j i) as [->|NE]; [congruence|]. intros Z. apply U. destruct es as [|e0 es]; [destruct j; discriminate|]. destruct j as [|j]; [lia|]. destruct i as [|i]; [lia|]. cbn [geo_trace nth_error] in *.
      eapply (trace_dead newton es); [|exact CJ|exact S|right; exact Z|reflexivity]. lia. }
    pose proof (C15_clip_conservative newton es y u n l j cj CJ UJ) as FJ. unfold free in SJ. rewrite FJ in SJ. injection SJ as <-. exists p. auto.
  - intros ((s & SS & U) & H). exists s. split; [|exact U]. destruct es as [|e0 es]; [cbn in L; lia|]. destruct i as [|i]; [exact SS|]. cbn [length] in L. unfold free in *. cbn [geo_trace nth_error] in *.
    set (Y := from_normal (e_place e0) y) in *. set (W := from_normal (e_place e0) u) in *.
    assert (EQ : sys_propagate newton (firstn (S i) es) Y W n l true = sys_propagate newton (firstn (S i) es) Y W n l false).
    { apply clip_pass; [reflexivity|]. intros k e N.
      assert (K : (k < S i)%nat) by (assert (X : (k < length (firstn (S i) es))%nat) by (apply nth_error_Some; congruence); rewrite firstn_length in X; lia).
      rewrite nth_firstn_lt in N by exact K.
      destruct (nth_error (sys_propagate newton es Y W n l false) k) as [sk|] eqn:SK.
      2:{ apply nth_error_None in SK. rewrite sys_length in SK. apply nth_error_None in SK. congruence. }
      exists e, sk. rewrite sys_firstn, !nth_firstn_lt by exact K. split; [exact N|]. split; [reflexivity|]. split; [reflexivity|]. split; [exact SK|].
      destruct (H (S k) e sk ltac:(lia) N SK) as (v & V & R). exists v. split; [exact V|]. destruct (e_radius e) as [r|]; [apply R; reflexivity|exact I]. }
    rewrite !sys_firstn in EQ. apply (f_equal (fun q => nth_error q i)) in EQ. rewrite !nth_firstn_lt in EQ by lia. rewrite EQ. exact SS.
Qed.
(** stopping down: what passes the smaller apertures passes the larger ones, on the same path *)
Theorem C117_stopped_down newton es es' y u n l i s : Forall2 stopped_down es' es ->
  nth_error (geo_trace newton es' y u n l true) i = Some s -> st_u s <> None ->
  nth_error (geo_trace newton es y u n l true) i = Some s.
Proof.
  intros F S U. assert (LE : length es' = length es) by (clear - F; induction F; cbn; auto).
  assert (FR : geo_trace newton es' y u n l false = geo_trace newton es y u n l false).
  { inversion F as [|e' e q' q (P & K & _) FQ]; subst; [reflexivity|]. cbn [geo_trace]. f_equal. rewrite P. apply unclipped.
    clear - FQ. induction FQ as [|? ? ? ? (A & B & _) _ IH]; constructor; auto. }
  assert (L : (i < length es)%nat).
  { rewrite <- LE. assert (X : nth_error (geo_trace newton es' y u n l true) i <> None) by congruence. apply nth_error_Some in X. destruct es' as [|e' es']; [cbn in X; lia|]. cbn [geo_trace length] in *. rewrite sys_length in X. exact X. }
  assert (PS : passes (geo_trace newton es' y u n l true) i) by (exists s; auto).
  apply C117_clipped in PS; [|rewrite LE; exact L]. destruct PS as (PF & H).
  assert (PL : passes (geo_trace newton es y u n l true) i).
  { apply C117_clipped; [exact L|]. rewrite <- FR. split; [exact PF|]. intros j e sj J E SJ.
    assert (E' : exists e', nth_error es' j = Some e' /\ stopped_down e' e).
    { clear - F E. revert j E. induction F as [|a b as' bs AB _ IH]; intros j E; [destruct j; discriminate|]. destruct j as [|j]; cbn in *; [injection E as <-; eauto|apply IH; exact E]. }
    destruct E' as (e' & E' & _ & _ & RR). destruct (H j e' sj J E' SJ) as (v & V & R). exists v. split; [exact V|]. intros r ER. destruct (RR r ER) as (r' & ER' & AB).
    specialize (R r' ER'). apply Rsqr_le_abs_1 in AB. unfold Rsqr in AB. lra. }
  destruct PL as (s2 & S2 & U2). pose proof (C15_clip_conservative newton es y u n l i s2 S2 U2) as A. pose proof (C15_clip_conservative newton es' y u n l i s S U) as B.
  rewrite FR, A in B. congruence.
Qed.

(** ** Example: an aperture of radius 3, stopped down to radius 1.  The ray at height 2 passes the former only, the ray at
    height 1/2 passes both. *)
Example C117_example newton : exists p0 p1, let es r := [El p0 None Plain; El p1 (Some r) Plain] in
  Forall2 stopped_down (es 1) (es 3) /\
  forall h, passes (geo_trace newton (es 3) (V 0 h 0) ez 1 1 false) 1 /\ (passes (geo_trace newton (es 3) (V 0 h 0) ez 1 1 true) 1 <-> h * h <= 9) /\
    (passes (geo_trace newton (es 1) (V 0 h 0) ez 1 1 true) 1 <-> h * h <= 1).
Proof.
  destruct (on_axis 0) as (p0 & _ & NF0 & FO0 & O0 & F0 & T0); [lra|].
  destruct (on_axis 5) as (p1 & _ & NF1 & FO1 & O1 & F1 & T1); [lra|].
  exists p0, p1. cbv zeta. split.
  { repeat constructor; cbn; try discriminate. intros r E. injection E as <-. exists 1. split; [reflexivity|]. rewrite !Rabs_pos_eq; lra. }
  assert (K : forall q h, sys_propagate newton [El p1 (Some q) Plain] (Some (V 0 h 0)) (Some ez) 1 1 false = [Step (Some (V 0 h 0)) (Some ez) 1 (Some ez) (Some 5)]).
  { intros q h. cbn [sys_propagate e_place obind onormal]. rewrite O1, !T1. unfold propagate. cbn [e_kind e_radius obind].
    unfold plane_intercept. rewrite fdiv_some by (unfold ez; cbn; lra). cbn [obind].
    replace (- vz (vsub3 (V 0 h 0) (V 0 0 5)) / vz ez) with 5 by (unfold ez; cbn; field).
    replace (at_ray (vsub3 (V 0 h 0) (V 0 0 5)) ez 5) with (V 0 h 0) by (apply vec_eq; unfold at_ray, ez; cbn; ring).
    rewrite Rmult_1_r. reflexivity. }
  intros h.
  assert (PF : forall q, passes (geo_trace newton [El p0 None Plain; El p1 (Some q) Plain] (V 0 h 0) ez 1 1 false) 1).
  { intros q. unfold passes. cbn [geo_trace nth_error e_place]. rewrite !F0, K. eexists. split; [reflexivity|]. cbn. discriminate. }
  assert (Q : forall q, passes (geo_trace newton [El p0 None Plain; El p1 (Some q) Plain] (V 0 h 0) ez 1 1 true) 1 <-> h * h <= q * q).
  { intros q. rewrite C117_clipped by (cbn; lia). split.
    - intros (_ & H). destruct (H 1%nat (El p1 (Some q) Plain) (Step (Some (V 0 h 0)) (Some ez) 1 (Some ez) (Some 5))) as (v & V & R); [lia|reflexivity| |].
      + cbn [geo_trace nth_error e_place]. rewrite !F0, K. reflexivity.
      + cbn in V. injection V as <-. specialize (R q eq_refl). cbn in R. lra.
    - intros HH. split; [apply PF|]. intros j e s J E S. assert (J1 : j = 1%nat) by lia. subst j. cbn in E. injection E as <-.
      cbn [geo_trace nth_error e_place] in S. rewrite !F0, K in S. cbn in S. injection S as <-. exists (V 0 h 0). split; [reflexivity|]. intros r E. cbn in E. injection E as <-. cbn. lra. }
  split; [apply PF|]. split; rewrite Q; replace (3 * 3) with 9 by lra; replace (1 * 1) with 1 by lra; reflexivity.
Qed.
