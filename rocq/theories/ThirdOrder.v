(** Second order calculus of even families, h -> 0 with h <> 0. *)
From Coq Require Import Reals Lra Lia Psatz.
From Verif Require Import Base Vec FirstOrder.
Open Scope R_scope.

Definition tends (f : R -> R) (a : R) : Prop := limit1_in f (fun h => h <> 0) a 0.
Definition nearly (P : R -> Prop) : Prop := near (fun h => h <> 0 -> P h).
Lemma nearly_and P Q : nearly P -> nearly Q -> nearly (fun h => P h /\ Q h).
Proof. intros A B. eapply near_impl; [|exact (near_and _ _ A B)]. intros h (H1 & H2) N. auto. Qed.
Lemma nearly_impl (P Q : R -> Prop) : (forall h, h <> 0 -> P h -> Q h) -> nearly P -> nearly Q.
Proof. intros H A. eapply near_impl; [|exact A]. intros h B N. auto. Qed.
Lemma near_nearly P : near P -> nearly P.
Proof. intros A. eapply near_impl; [|exact A]. intros h B N. auto. Qed.

Lemma tends_spec f a : tends f a <-> forall eps, 0 < eps -> nearly (fun h => Rabs (f h - a) < eps).
Proof.
  unfold tends, limit1_in, limit_in, nearly, near. cbn. unfold R_dist. split; intros H eps E; destruct (H eps E) as (d & D & K); exists d; (split; [auto|]).
  - intros h L N. apply K. rewrite Rminus_0_r. auto.
  - intros h (N & L). rewrite Rminus_0_r in L. auto.
Qed.
Lemma tends_ext f g a : nearly (fun h => f h = g h) -> tends f a -> tends g a.
Proof.
  intros E H. rewrite tends_spec in *. intros eps P. eapply nearly_impl; [|exact (nearly_and _ _ E (H eps P))]. intros h _ (A & B). cbn in A. rewrite <- A. exact B.
Qed.
Lemma tends_eq f a b : tends f a -> a = b -> tends f b. Proof. intros H <-. auto. Qed.
Lemma tends_const c : tends (fun _ => c) c.
Proof. apply tends_spec. intros eps P. exists 1. split; [lra|]. intros h _ _. unfold Rminus. rewrite Rplus_opp_r, Rabs_R0. auto. Qed.
Lemma tends_id : tends (fun h => h) 0.
Proof. apply tends_spec. intros eps P. exists eps. split; [auto|]. intros h L _. rewrite Rminus_0_r. auto. Qed.
Lemma tends_plus f g a b : tends f a -> tends g b -> tends (fun h => f h + g h) (a + b). Proof. apply limit_plus. Qed.
Lemma tends_minus f g a b : tends f a -> tends g b -> tends (fun h => f h - g h) (a - b). Proof. apply limit_minus. Qed.
Lemma tends_opp f a : tends f a -> tends (fun h => - f h) (- a). Proof. apply limit_Ropp. Qed.
Lemma tends_mult f g a b : tends f a -> tends g b -> tends (fun h => f h * g h) (a * b). Proof. apply limit_mul. Qed.
Lemma tends_div f g a b : tends f a -> tends g b -> b <> 0 -> tends (fun h => f h / g h) (a / b).
Proof. intros A B N. apply tends_mult; [auto|]. apply limit_inv; auto. Qed.
Lemma tends_pos f a : tends f a -> 0 < a -> nearly (fun h => 0 < f h).
Proof. intros H P. rewrite tends_spec in H. eapply nearly_impl; [|exact (H a P)]. intros h _ K. cbn in K. apply Rabs_def2 in K. lra. Qed.
Lemma tends_nonzero f a : tends f a -> a <> 0 -> nearly (fun h => f h <> 0).
Proof.
  intros H N. rewrite tends_spec in H. eapply nearly_impl; [|exact (H (Rabs a) (Rabs_pos_lt a N))]. intros h _ K. cbn in K. intros E. rewrite E in K.
  unfold Rminus in K. rewrite Rplus_0_l, Rabs_Ropp in K. lra.
Qed.
Lemma tends_sqrt f a : tends f a -> 0 < a -> tends (fun h => sqrt (f h)) (sqrt a).
Proof.
  intros H P. apply tends_spec. intros eps E. assert (C : continuity_pt sqrt a) by (apply continuity_pt_sqrt; lra).
  destruct (C eps E) as (d & D & K). rewrite tends_spec in H. eapply nearly_impl; [|exact (H d D)]. intros h _ L. cbn in L.
  destruct (Req_dec (f h) a) as [-> | N]; [unfold Rminus; rewrite Rplus_opp_r, Rabs_R0; auto|]. apply (K (f h)). split; [split; [exact I|auto]|exact L].
Qed.
Lemma lin_tends f a b : lin f a b -> tends f a /\ tends (fun h => (f h - a) / h) b.
Proof.
  intros (A & D). assert (T : tends (fun h => (f h - a) / h) b).
  { apply tends_spec. intros eps P. destruct (D eps P) as (d & K). exists d. split; [apply cond_pos|]. intros h L N. specialize (K h N L). rewrite Rplus_0_l, A in K. exact K. }
  split; [|exact T]. apply (tends_ext (fun h => (f h - a) / h * h + a)).
  - exists 1. split; [lra|]. intros h _ N. field. auto.
  - apply (tends_eq _ (b * 0 + a)); [|ring]. apply tends_plus; [apply tends_mult; [exact T|apply tends_id]|apply tends_const].
Qed.

(** [f = a + b h^2 + o(h^2)] *)
Definition jet (f : R -> R) (a b : R) : Prop := tends f a /\ tends (fun h => (f h - a) / (h * h)) b.
Lemma jet_eq f a b a' b' : jet f a b -> a = a' -> b = b' -> jet f a' b'. Proof. intros H <- <-. auto. Qed.
Lemma jet_ext f g a b : nearly (fun h => f h = g h) -> jet f a b -> jet g a b.
Proof.
  intros E (A & B). split; [exact (tends_ext _ _ _ E A)|]. eapply tends_ext; [|exact B]. eapply nearly_impl; [|exact E]. intros h _ K. cbn in K. rewrite K. reflexivity.
Qed.
Lemma all_nearly (P : R -> Prop) : (forall h, h <> 0 -> P h) -> nearly P.
Proof. intros H. exists 1. split; [lra|]. intros h _ N. auto. Qed.
Lemma jet_const c : jet (fun _ => c) c 0.
Proof. split; [apply tends_const|]. eapply tends_ext; [|apply (tends_const 0)]. apply all_nearly. intros h N. field. auto. Qed.
Lemma jet_h2 f a : tends f a -> jet (fun h => h * h * f h) 0 a.
Proof.
  intros H. split.
  - apply (tends_eq _ (0 * 0 * a)); [|ring]. repeat apply tends_mult; auto; apply tends_id.
  - eapply tends_ext; [|exact H]. apply all_nearly. intros h N. field. auto.
Qed.
Lemma jet_plus f g a b c d : jet f a b -> jet g c d -> jet (fun h => f h + g h) (a + c) (b + d).
Proof.
  intros (A & B) (C & D). split; [apply tends_plus; auto|]. eapply tends_ext; [|exact (tends_plus _ _ _ _ B D)]. apply all_nearly. intros h N. field. auto.
Qed.
Lemma jet_minus f g a b c d : jet f a b -> jet g c d -> jet (fun h => f h - g h) (a - c) (b - d).
Proof.
  intros (A & B) (C & D). split; [apply tends_minus; auto|]. eapply tends_ext; [|exact (tends_minus _ _ _ _ B D)]. apply all_nearly. intros h N. field. auto.
Qed.
Lemma jet_mult f g a b c d : jet f a b -> jet g c d -> jet (fun h => f h * g h) (a * c) (b * c + a * d).
Proof.
  intros (A & B) (C & D). split; [apply tends_mult; auto|].
  eapply tends_ext; [|exact (tends_plus _ _ _ _ (tends_mult _ _ _ _ B C) (tends_mult _ _ _ _ (tends_const a) D))]. apply all_nearly. intros h N. field. auto.
Qed.
Lemma jet_div f g a b c d : jet f a b -> jet g c d -> c <> 0 -> jet (fun h => f h / g h) (a / c) ((b * c - a * d) / (c * c)).
Proof.
  intros (A & B) (C & D) N. split; [apply tends_div; auto|].
  eapply tends_ext; [|apply (tends_div (fun h => (f h - a) / (h * h) * c - a * ((g h - c) / (h * h))) (fun h => g h * c))].
  - eapply nearly_impl; [|exact (tends_nonzero _ _ C N)]. intros h H G. cbn in G. field. repeat split; auto.
  - apply tends_minus; apply tends_mult; auto; apply tends_const.
  - apply tends_mult; [auto|apply tends_const].
  - apply Rmult_integral_contrapositive_currified; auto.
Qed.
Lemma jet_sqrt f a b : jet f a b -> 0 < a -> jet (fun h => sqrt (f h)) (sqrt a) (b / (2 * sqrt a)).
Proof.
  intros (A & B) P. assert (S : 0 < sqrt a) by (apply sqrt_lt_R0; auto). split; [apply tends_sqrt; auto|].
  eapply tends_ext; [|apply (tends_div (fun h => (f h - a) / (h * h)) (fun h => sqrt (f h) + sqrt a)); [exact B|apply (tends_eq _ (sqrt a + sqrt a)); [apply tends_plus; [apply tends_sqrt; auto|apply tends_const]|ring]|lra]].
  - eapply nearly_impl; [|exact (tends_pos _ _ A P)]. intros h N F. cbn in F. assert (SF : 0 < sqrt (f h)) by (apply sqrt_lt_R0; auto).
    set (p := sqrt (f h)) in *. set (q := sqrt a) in *. replace (f h) with (p * p) by (apply sqrt_sqrt; lra). replace a with (q * q) at 1 by (apply sqrt_sqrt; lra).
    field. split; lra.
Qed.
Ltac jet_step := first [ eassumption | eapply jet_const | eapply jet_minus | eapply jet_plus | eapply jet_mult ].
Ltac jet_auto := repeat jet_step.
