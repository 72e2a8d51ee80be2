(** The polynomial trace of a sphere of radius one into glass of index two, parallel light, in the focal plane. *)
From Coq Require Import Reals List Arith ZArith Lia Lra.
From Verif Require Import Base Vec RotModel PlacementModel ElementModel SimplexModel PolyModel PropsPoly PropsSeidel PropsPolySeidel PolyRational.
From Coq Require Import QArith Qreals.
Import ListNotations.
Open Scope R_scope.

Definition demo_s : list Q := [0; -1 # 8; -3 # 4; -1 # 2; -9 # 128; -17 # 32; -1 # 2; -3 # 16; -5 # 4; -3 # 4]%Q.
Definition demo_t : list Q := [1; -1 # 4; -3 # 2; -1; -9 # 64; -17 # 16; -1; -3 # 8; -5 # 2; -3 # 2]%Q.
Definition table3 := match simplex_idx 3 3 with Some (_, _, a) => a | None => [] end.
Definition start3 : qstate := (let z := repeat 0 10 in QS z 1 (upd 1 1 z) (upd 2 1 z) (upd 3 1 z) (qshift z 1) z z (qshift z 1) z)%Q.
Lemma demo_rational : exists s1 s2, qpropagate table3 3 10 1 1 2 (1 # 2) start3 = Some s1 /\ qpropagate table3 3 10 0 2 2 1 s1 = Some s2 /\ qs_n s1 = 2%Q /\ qs_s s2 = demo_s /\ qs_t s2 = demo_t.
Proof.
  destruct (qpropagate table3 3 10 1 1 2 (1 # 2) start3) as [s1|] eqn:E1; [|vm_compute in E1; discriminate]. vm_compute in E1. injection E1 as <-. eexists. eexists. split; [reflexivity|]. split; [vm_compute; reflexivity|]. repeat split.
Qed.
Lemma demo_coefs l idx jdx abi : simplex_idx 3 3 = Some (idx, jdx, abi) -> exists sts st, poly_trace abi 3 (simplex_size 3 3) (demo_e0 :: demo_es 1 2) l 0 1 = Some sts /\ nth_error sts 2 = Some st /\
  ps_s st = [0; -1 / 8; -3 / 4; -1 / 2; -9 / 128; -17 / 32; -1 / 2; -3 / 16; -5 / 4; -3 / 4] /\
  ps_t st = [1; -1 / 4; -3 / 2; -1; -9 / 64; -17 / 16; -1; -3 / 8; -5 / 2; -3 / 2].
Proof.
  intros SI. assert (TB : table3 = abi) by (unfold table3; rewrite SI; reflexivity). destruct demo_rational as (s1 & s2 & E1 & E2 & N1 & S2 & T2). rewrite TB in E1, E2.
  assert (SZ : simplex_size 3 3 = 10%nat) by reflexivity. rewrite SZ.
  exists [stateR start3; stateR s1; stateR s2], (stateR s2). split; [|split; [reflexivity|]].
  - unfold poly_trace. pose proof (toR_rays 10 1 ltac:(lia)) as RY. rewrite Q2R_1' in RY. rewrite RY. fold start3. cbn [obind tl poly_from demo_es].
    change (QS (repeat 0%Q 10) 1 _ _ _ _ _ _ _ _) with start3.
    assert (SG1 : sign (Q2R 1) = 1) by (rewrite Q2R_1'; unfold sign; destruct (Rlt_dec 0 1); [reflexivity|lra]).
    rewrite (toR_propagate abi 3 10 (El (at_front 1) None (Sph (Some glass2) (Surf 1 0 None false))) l (Some glass2) (Surf 1 0 None false) 1 1 2 (1 # 2) start3 s1); [cbn [obind]| | | | | |exact E1]; try reflexivity.
    + rewrite (toR_propagate abi 3 10 (El (at_front 2) None (Sph None (Surf 0 0 None false))) l None (Surf 0 0 None false) 0 2 2 1 s1 s2); [reflexivity| | | | | |exact E2]; try reflexivity.
      * cbn. cbv [Q2R Qnum Qden]. lra.
      * cbn [s_c]. rewrite Q2R_0'. ring.
      * rewrite N1. cbn [get_n_mu]. rewrite Q2R_1'. reflexivity.
    + cbn. cbv [Q2R Qnum Qden]. lra.
    + cbn [s_c]. rewrite SG1, Q2R_1'. ring.
    + cbn [get_n_mu m_mirror m_index glass2 start3 qs_n]. rewrite Q2R_1'. unfold fdiv. destruct (Req_EM_T 2 0); [lra|]. cbv [Q2R Qnum Qden]. apply (f_equal2 (@pair R (option R))); [lra|apply f_equal; lra].
  - cbn [stateR ps_s ps_t]. rewrite S2, T2. unfold demo_s, demo_t, toR. cbn [map]. cbv [Q2R Qnum Qden]. split; repeat (apply (f_equal2 (@cons R)); [lra|]); reflexivity.
Qed.
