(* Convex problems: the Newton systems of a run, and C36. *)
From Verif Require Export PropsRiccati PropsDenseNewton PropsRunR PropsMpcData.
Local Open Scope R_scope.

Lemma solve_sigma LA P o x el r : solves LA P o x el r -> 0 < p_sigma0 o.
Proof.
  intro S0. apply solve_admissible in S0. pose proof (ad_sigma0_pos _ _ S0) as K. apply Rleb_true in K.
  revert K. cbn. unfold Rdec; cbn. lra.
Qed.

(* the linear solver of a run on a convex problem *)
Lemma lin_newton LA P D DI d pinit pst : LALaws LA -> convex P ->
  Explicit DI d P -> linsys LA P D DI d pinit pst ->
  forall al sg y yb, 0 < al < 1 -> 0 < sg ->
  pinit al sg y yb = Ok true /\
  forall r, rsd_ok (n_z P) (n_l P) (n_v P) r ->
    let dx := pst al sg y yb r in
    newton_system P sg (rg (w_gamma Rops al sg y yb (n_v P))) (rg (w_mus Rops al sg y yb (n_v P)))
      (rg (v_z dx)) (rg (v_l dx)) (rg (v_v dx)) (rg (r_z r)) (rg (r_l r)) (rg (r_v r)).
Proof.
  intros LL C EX LI al sg y yb Hal Hsg. revert EX. destruct LI as [d0 DO EP|d0 o MO DS Hx EP]; intro EX.
  - assert (Sy : forall i j, (i < n_z P)%nat -> (j < n_z P)%nat -> rm (dd_H d0) i j = rm (dd_H d0) j i).
    { destruct C as [Sy _]. intros i j Hi Hj. specialize (Sy i j Hi Hj). rewrite EP in Sy. exact Sy. }
    assert (C' : convex (dense_qp_of d0)) by (rewrite <- EP; exact C).
    assert (K := convex_init LA LL d0 _ _ _ DO al sg y yb Hal Hsg Sy C').
    split.
    + unfold d_pinit. change (o_leb Rops sg (o_zero Rops)) with (Rleb sg 0).
      assert (X : Rleb sg 0 = false) by (apply Rleb_false; lra). rewrite X, K. reflexivity.
    + intros r Hr dx.
      assert (N := step_newton LA LL d0 _ _ _ DO al sg y yb Hal Hsg Sy r Hr
                     (convex_regular d0 _ _ _ DO al sg y yb Hal Hsg C') K).
      cbv zeta in N. fold dx in N. rewrite <- EP in N. exact N.
  - assert (SCv : stagewise_convex o) by (apply (C25_convex_iff o); rewrite <- EP; exact C).
    destruct (fact_some LA LL d0 o MO DS al sg y yb Hsg) as [sts ES]; [apply SCv|apply SCv| |].
    { apply stage_forms; [exact SCv|]. intros k Hk.
      destruct (C33_weights al sg y yb (n_v (ocp_qp o)) Hal Hsg) as (_ & _ & _ & W). apply W. exact Hk. }
    split.
    + unfold m_pinit. change (o_leb Rops sg (o_zero Rops)) with (Rleb sg 0).
      assert (X : Rleb sg 0 = false) by (apply Rleb_false; lra). rewrite X, ES. reflexivity.
    + intros r Hr dx. subst P.
      destruct (riccati_newton LA LL d0 o MO DS EX al sg y yb Hal Hsg (proj1 SCv) (proj1 (proj2 SCv)) r) as (N & _).
      * rewrite ES. discriminate.
      * exact Hr.
      * exact N.
Qed.

(* ---------------------------------------------------------------- C36 *)
(* For a convex problem, with linear algebra satisfying the laws of Eigen's factorisations in
   exact arithmetic, Solve returns normally provided inner_tol_min is at most inner_tol_max and
   at most the convergence tolerance. *)
Theorem C36_convex_never_throws : forall LA P o x el r, LALaws LA ->
  solves LA P o x el r -> convex P ->
  p_inner_tol_min o <= p_inner_tol_max o -> p_inner_tol_min o <= solve_tolerance P o ->
  exists out, sr_out r = Ok out.
Proof.
  intros LA P o x el r LL Sv C H1 H2.
  assert (Hal := solve_alpha _ _ _ _ _ _ Sv). assert (Hsg := solve_sigma _ _ _ _ _ _ Sv).
  destruct (solves_rcall _ _ _ _ _ _ Sv) as (D & DI & d & pinit & pst & stale & w & RC).
  pose proof (rc_call _ _ _ _ _ _ _ _ _ _ _ _ _ RC) as SC.
  pose proof (rc_ex _ _ _ _ _ _ _ _ _ _ _ _ _ RC) as EX.
  assert (NC : sr_out r <> Throw ESaturate).
  { apply (C05_no_clamp_exception Rops LA R_zero_eq SC (fun _ => True) ord_R).
    - apply Rleb_true. exact H1.
    - rewrite (tol_is _ _ _ EX). apply Rleb_true. exact H2. }
  assert (NT : forall y yb rr e, pb_newton (prob_of Rops DI d (n_z P) (n_l P) (n_v P) pinit pst o) y yb rr <> Throw e).
  { intros y yb rr e. cbn [pb_newton prob_of]. unfold pnewton.
    destruct (lin_newton LA P D DI d pinit pst LL C EX (rc_lin _ _ _ _ _ _ _ _ _ _ _ _ _ RC)
                (p_alpha o) (p_sigma0 o) y yb Hal Hsg) as [-> _]. discriminate. }
  pose proof (rmaster RC) as M. cbv zeta in M.
  destruct (sr_out r) as [out|e|u]; [exists out; reflexivity| |contradiction].
  exfalso.
  assert (E : e = ESaturate \/ exit_ok Rops o (prob_of Rops DI d (n_z P) (n_l P) (n_v P) pinit pst o) (@vm P)
      (ws_ok (n_z P) (n_l P) (n_v P))
      (pones Rops (prob_of Rops DI d (n_z P) (n_l P) (n_v P) pinit pst o) (n_z P) (n_l P) (n_v P)) (p_max_prox o)
      (after (pstart (prob_of Rops DI d (n_z P) (n_l P) (n_v P) pinit pst o) x) (sr_trace r)) (Throw e))
    by (destruct e; try (left; reflexivity); right; apply M).
  destruct E as [E|(_ & [(E & _)|(_ & E)])].
  - rewrite E in NC. apply NC; reflexivity.
  - rewrite E in NC. apply NC; reflexivity.
  - apply NT in E. exact E.
Qed.
Print Assumptions C36_convex_never_throws.

(* In particular when inner_tol_min is at most abs_tol and inner_tol_max, whatever the problem data... *)
Theorem C36_by_options : forall LA P o x el r, LALaws LA ->
  solves LA P o x el r -> convex P ->
  p_inner_tol_min o <= p_inner_tol_max o -> p_inner_tol_min o <= p_abs_tol o ->
  exists out, sr_out r = Ok out.
Proof.
  intros LA P o x el r LL Sv C H1 H2. eapply C36_convex_never_throws; try eassumption.
  destruct (solve_tol _ _ _ _ _ _ Sv) as [T1 T2]. unfold solve_tolerance.
  match goal with |- _ <= _ + p_rel_tol o * (1 + sqrt ?a) => assert (0 <= p_rel_tol o * (1 + sqrt a)) by
    (apply Rmult_le_pos; [exact T2|assert (Q := sqrt_pos a); lra]) end.
  lra.
Qed.
(* ...and so with each of the presets. *)
Theorem C36_presets : forall LA P o x el r, LALaws LA ->
  solves LA P o x el r -> convex P ->
  o = DefaultParameters Rops \/ o = ReliableParameters Rops ->
  exists out, sr_out r = Ok out.
Proof.
  intros LA P o x el r LL Sv C [E|E]; (eapply C36_by_options; [exact LL|exact Sv|exact C| |]; rewrite E; cbn; unfold Rdec; cbn; lra).
Qed.
Print Assumptions C36_by_options.
Print Assumptions C36_presets.
