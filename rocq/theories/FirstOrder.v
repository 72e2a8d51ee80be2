(** First-order calculus of families of numbers, possibly undefined away from 0. *)
From Coq Require Import Reals Lra Lia Psatz.
From Verif Require Import Base Vec.
Open Scope R_scope.

(** value and derivative at 0 *)
Definition lin (f : R -> R) (a b : R) : Prop := f 0 = a /\ derivable_pt_lim f 0 b.
(** in some neighbourhood of 0 *)
Definition near (P : R -> Prop) : Prop := exists d, 0 < d /\ forall e, Rabs e < d -> P e.
Definition olin (F : R -> option R) (a b : R) : Prop :=
  exists f, lin f a b /\ near (fun e => F e = Some (f e)).

Lemma near_and P Q : near P -> near Q -> near (fun e => P e /\ Q e).
Proof.
  intros (d & D & H) (d' & D' & H'). exists (Rmin d d'). split; [apply Rmin_pos; auto|].
  intros e E. split; [apply H|apply H']; eapply Rlt_le_trans; eauto; [apply Rmin_l|apply Rmin_r].
Qed.
Lemma near_impl (P Q : R -> Prop) : (forall e, P e -> Q e) -> near P -> near Q.
Proof. intros H (d & D & K). exists d. auto. Qed.
Lemma near_true (P : R -> Prop) : (forall e, P e) -> near P.
Proof. intros H. exists 1. split; [lra|auto]. Qed.
Lemma near_0 (P : R -> Prop) : near P -> P 0.
Proof. intros (d & D & H). apply H. rewrite Rabs_R0. auto. Qed.

Lemma lin_eq f a b a' b' : lin f a b -> a = a' -> b = b' -> lin f a' b'.
Proof. intros H -> ->. auto. Qed.
Lemma lin_ext f g a b : (forall e, f e = g e) -> lin f a b -> lin g a b.
Proof.
  intros H (A & B). split; [rewrite <- H; auto|]. eapply derivable_pt_lim_ext; eauto.
Qed.
Lemma lin_const c : lin (fun _ => c) c 0.
Proof. split; [auto|]. apply derivable_pt_lim_const. Qed.
Lemma lin_id : lin (fun e => e) 0 1.
Proof. split; [auto|]. apply derivable_pt_lim_id. Qed.
Lemma lin_plus f g a b c d : lin f a b -> lin g c d -> lin (fun e => f e + g e) (a + c) (b + d).
Proof. intros (A & B) (C & D). split; [congruence|]. apply (derivable_pt_lim_plus f g); auto. Qed.
Lemma lin_minus f g a b c d : lin f a b -> lin g c d -> lin (fun e => f e - g e) (a - c) (b - d).
Proof. intros (A & B) (C & D). split; [congruence|]. apply (derivable_pt_lim_minus f g); auto. Qed.
Lemma lin_opp f a b : lin f a b -> lin (fun e => - f e) (- a) (- b).
Proof. intros (A & B). split; [congruence|]. apply (derivable_pt_lim_opp f); auto. Qed.
Lemma lin_mult f g a b c d : lin f a b -> lin g c d -> lin (fun e => f e * g e) (a * c) (b * c + a * d).
Proof.
  intros (A & B) (C & D). split; [congruence|]. rewrite <- A, <- C. apply (derivable_pt_lim_mult f g); auto.
Qed.
Lemma lin_div f g a b c d : lin f a b -> lin g c d -> c <> 0 ->
  lin (fun e => f e / g e) (a / c) ((b * c - d * a) / (c * c)).
Proof.
  intros (A & B) (C & D) N. split; [congruence|]. rewrite <- A, <- C. change (g 0 * g 0) with (Rsqr (g 0)).
  apply (derivable_pt_lim_div f g); auto. rewrite C; auto.
Qed.
Lemma lin_sqrt f a b : lin f a b -> 0 < a -> lin (fun e => sqrt (f e)) (sqrt a) (b / (2 * sqrt a)).
Proof.
  intros (A & B) P. split; [congruence|].
  replace (b / (2 * sqrt a)) with (/ (2 * sqrt a) * b) by (unfold Rdiv; ring).
  apply (derivable_pt_lim_comp f sqrt); [auto|]. rewrite A. apply derivable_pt_lim_sqrt. auto.
Qed.

(** continuity *)
Lemma lin_pos f a b : lin f a b -> 0 < a -> near (fun e => 0 < f e).
Proof.
  intros (A & B) P.
  assert (C : continuity_pt f 0).
  { apply derivable_continuous_pt. exists b. exact B. }
  destruct (C (a / 2)) as (d & D & H); [lra|]. exists d. split; [auto|]. intros e E.
  destruct (Req_dec e 0) as [-> | N]; [rewrite A; auto|].
  specialize (H e). cbn in H. unfold R_dist in H. rewrite A, Rminus_0_r in H.
  assert (K : Rabs (f e - a) < a / 2).
  { apply H. split; [|auto]. split; [exact I|auto]. }
  apply Rabs_def2 in K. lra.
Qed.
Lemma lin_nonzero f a b : lin f a b -> a <> 0 -> near (fun e => f e <> 0).
Proof.
  intros H N. destruct (Rlt_le_dec 0 a) as [L|L].
  - eapply near_impl; [|eapply lin_pos; eauto]. intros e; cbn; lra.
  - eapply near_impl; [|eapply (lin_pos _ _ _ (lin_opp _ _ _ H)); lra]. intros e; cbn; lra.
Qed.
Lemma lin_bound f a b r : lin f a b -> a < r -> near (fun e => f e < r).
Proof.
  intros H L. eapply near_impl; [|eapply (lin_pos _ _ _ (lin_minus _ _ _ _ _ _ (lin_const r) H)); lra].
  intros e; cbn; lra.
Qed.

Lemma olin_some f a b : lin f a b -> olin (fun e => Some (f e)) a b.
Proof. intros H. exists f. split; [auto|apply near_true; auto]. Qed.
Lemma olin_eq F a b a' b' : olin F a b -> a = a' -> b = b' -> olin F a' b'.
Proof. intros H -> ->. auto. Qed.
Lemma olin_bind F G a b c d : olin F a b -> (forall f, lin f a b -> olin (fun e => G e (f e)) c d) ->
  olin (fun e => do x <- F e; G e x) c d.
Proof.
  intros (f & L & N) H. destruct (H f L) as (g & L' & N'). exists g. split; [auto|].
  eapply near_impl; [|apply (near_and _ _ N N')]. intros e (A & B). cbn. rewrite A. exact B.
Qed.
Lemma olin_fsqrt f a b : lin f a b -> 0 < a -> olin (fun e => fsqrt (f e)) (sqrt a) (b / (2 * sqrt a)).
Proof.
  intros L P. exists (fun e => sqrt (f e)). split; [apply lin_sqrt; auto|].
  eapply near_impl; [|eapply lin_pos; eauto]. intros e E. apply fsqrt_some. cbn in E. lra.
Qed.
Lemma olin_fdiv f g a b c d : lin f a b -> lin g c d -> c <> 0 ->
  olin (fun e => fdiv (f e) (g e)) (a / c) ((b * c - d * a) / (c * c)).
Proof.
  intros L L' N. exists (fun e => f e / g e). split; [apply lin_div; auto|].
  eapply near_impl; [|eapply lin_nonzero; eauto]. intros e E. apply fdiv_some. auto.
Qed.

(** families of vectors *)
Definition vlin (Y : R -> vec) (a b : vec) : Prop :=
  lin (fun e => vx (Y e)) (vx a) (vx b) /\ lin (fun e => vy (Y e)) (vy a) (vy b) /\
  lin (fun e => vz (Y e)) (vz a) (vz b).
Definition ovlin (F : R -> option vec) (a b : vec) : Prop :=
  exists f, vlin f a b /\ near (fun e => F e = Some (f e)).
Lemma ovlin_bind F G a b c d : ovlin F a b -> (forall f, vlin f a b -> ovlin (fun e => G e (f e)) c d) ->
  ovlin (fun e => do x <- F e; G e x) c d.
Proof.
  intros (f & L & N) H. destruct (H f L) as (g & L' & N'). exists g. split; [auto|].
  eapply near_impl; [|apply (near_and _ _ N N')]. intros e (A & B). cbn. rewrite A. exact B.
Qed.
Lemma ovlin_olin_bind F G a b c d : olin F a b -> (forall f, lin f a b -> ovlin (fun e => G e (f e)) c d) ->
  ovlin (fun e => do x <- F e; G e x) c d.
Proof.
  intros (f & L & N) H. destruct (H f L) as (g & L' & N'). exists g. split; [auto|].
  eapply near_impl; [|apply (near_and _ _ N N')]. intros e (A & B). cbn. rewrite A. exact B.
Qed.
Lemma olin_ovlin_bind F G a b c d : ovlin F a b -> (forall f, vlin f a b -> olin (fun e => G e (f e)) c d) ->
  olin (fun e => do x <- F e; G e x) c d.
Proof.
  intros (f & L & N) H. destruct (H f L) as (g & L' & N'). exists g. split; [auto|].
  eapply near_impl; [|apply (near_and _ _ N N')]. intros e (A & B). cbn. rewrite A. exact B.
Qed.
Lemma ovlin_some f a b : vlin f a b -> ovlin (fun e => Some (f e)) a b.
Proof. intros H. exists f. split; [auto|apply near_true; auto]. Qed.
Lemma ovlin_near F G a b : near (fun e => F e = G e) -> ovlin F a b -> ovlin G a b.
Proof.
  intros N (f & L & N'). exists f. split; [auto|]. eapply near_impl; [|apply (near_and _ _ N N')].
  intros e (A & B). cbn in *. congruence.
Qed.
Lemma ovlin_eq F a b a' b' : ovlin F a b -> a = a' -> b = b' -> ovlin F a' b'.
Proof. intros H -> ->. auto. Qed.

Ltac lin_step := first
  [ eassumption
  | eapply lin_const
  | eapply lin_minus | eapply lin_plus | eapply lin_opp | eapply lin_mult ].
Ltac lin_auto := repeat lin_step.
