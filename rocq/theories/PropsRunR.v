(* Solve over the reals: C15, C28, C29, C31, C32, C39 at the level of the public API. *)
From Verif Require Export RunR PropsCert PropsOptions PropsRun.
From Verif Require Import ParamsProofs.
Local Open Scope R_scope.

(* ---------------------------------------------------------------- C39, any arithmetic *)
Section Warm.
  Context {T : Type} (O : Ops T) (LA : LinAlg T).
  Hypothesis zero_eq : o_eqb O (o_zero O) (o_zero O) = true.

  Theorem C39_converged_guess : forall D (DI : DataI T D) d nz nl nv o x el r x0 E0,
    solve_call O LA D DI d nz nl nv o x el r ->
    start_point O DI d nz nl nv x = Ok x0 ->
    kkt_residual O DI d nz nl nv (p_alpha o) x0 = Ok E0 ->
    o_leb O E0 (tolerance O DI d o) = true ->
    o_ltb O (p_inner_tol_max o) (p_inner_tol_min o) = false ->
    sr_out r = Ok (mkOut SUCCESS E0 0 0 el E0) /\ sr_x r = x0 /\ sr_trace r = [].
  Proof.
    intros D DI d nz nl nv o x el r x0 E0 call ST RS LE TO.
    destruct (call_desc_ex O LA zero_eq _ _ _ _ _ _ _ _ _ _ call) as (pinit & pst & stale & w & CD).
    rewrite (br_start O _ _ _ _ _ _ _ _ _ _ _ _ _ CD) in ST. injection ST as <-.
    rewrite (br_resid O _ _ _ _ _ _ _ _ _ _ _ _ _ CD) in RS
      by (apply (cl_start O _ _ _ _ _ _ _ _ _ _ _ _ _ CD)). injection RS as <-.
    destruct (cd_lim _ _ _ _ _ _ _ _ _ _ _ _ _ _ CD) as (_ & L2 & _ & _).
    rewrite (cd_run _ _ _ _ _ _ _ _ _ _ _ _ _ _ CD). unfold psolve, saturate. rewrite TO.
    cbn [wlift wbind wlog].
    destruct (Z.to_nat (p_max_prox o)) as [|fuel] eqn:EF; [lia|]. cbn [pprox].
    rewrite <- (br_tol O DI d nz nl nv o pinit pst) in LE. cbn [pb_pnr prob_of] in LE |- *. rewrite LE. cbn [orb].
    cbn. auto.
  Qed.
End Warm.

Lemma solve_admissible LA P o x el r : solves LA P o x el r -> admissible Rops o.
Proof.
  intro S. destruct (solves_rcall _ _ _ _ _ _ S) as (D & DI & d & pinit & pst & stale & w & RC).
  destruct (call_opts reals LA default_R R_zero_eq _ _ _ _ _ _ _ _ _ _ (rc_call _ _ _ _ _ _ _ _ _ _ _ _ _ RC)) as [o0 ->].
  apply (validated_admissible ord_R lit_R). constructor; exact I.
Qed.
Lemma between_R a b x : ParamsProofs.between Rops a x b -> a <= x <= b.
Proof. intros [H1 H2]. cbn in H1, H2. apply Rleb_true in H1, H2. lra. Qed.
Lemma solve_alpha LA P o x el r : solves LA P o x el r -> 0 < p_alpha o < 1.
Proof.
  intro S. apply solve_admissible in S. pose proof (between_R _ _ _ (ad_alpha _ _ S)) as K.
  revert K. cbn. unfold Rdec; cbn. lra.
Qed.
Lemma solve_itol LA P o x el r : solves LA P o x el r -> 0 <= p_infeas_tol o.
Proof.
  intro S. apply solve_admissible in S. pose proof (ad_infeas _ _ S) as K. apply Rleb_true in K.
  revert K. cbn. unfold Rdec; cbn. lra.
Qed.
Lemma solve_tol LA P o x el r : solves LA P o x el r -> 0 <= p_abs_tol o /\ 0 <= p_rel_tol o.
Proof.
  intro S. apply solve_admissible in S. pose proof (ad_abs _ _ S) as K1. pose proof (ad_rel _ _ S) as K2.
  apply Rleb_true in K1, K2. revert K1 K2. cbn. unfold Rdec; cbn. lra.
Qed.

(* abs_tol + rel_tol * (1 + ||(f,h,b)||) *)
Definition solve_tolerance (P : QP) (o : params R) : R :=
  p_abs_tol o + p_rel_tol o * (1 + sqrt (rsum (n_z P) (fun i => cf P i * cf P i) +
     rsum (n_l P) (fun i => ch P i * ch P i) + rsum (n_v P) (fun i => cb P i * cb P i))).

Section ApiR.
  Context {LA : LinAlg R} {P : QP} {o : params R} {x : var R} {el : R} {r : solve_result R}.
  Hypothesis call : solves LA P o x el r.
  Notation nz := (n_z P). Notation nl := (n_l P). Notation nv := (n_v P).
  (* the returned point *)
  Notation z := (rg (v_z (sr_x r))). Notation l := (rg (v_l (sr_x r))). Notation v := (rg (v_v (sr_x r))).

  Local Ltac open :=
    destruct (solves_rcall _ _ _ _ _ _ call) as (D & DI & d & pinit & pst & stale & w & RC);
    pose proof (rc_call _ _ _ _ _ _ _ _ _ _ _ _ _ RC) as SC;
    pose proof (rc_ex _ _ _ _ _ _ _ _ _ _ _ _ _ RC) as EX;
    pose proof (rc_cd _ _ _ _ _ _ _ _ _ _ _ _ _ RC) as CD.
  Lemma tol_is D (DI : DataI R D) d : Explicit DI d P -> tolerance Rops DI d o = solve_tolerance P o.
  Proof. intro EX. unfold tolerance, solve_tolerance. rewrite (ex_fnorm _ _ _ EX). reflexivity. Qed.

  (* ---------------------------------------------------------------- C15 *)
  Theorem C15_output_margin : forall out, sr_out r = Ok out ->
    length (v_z (sr_x r)) = nz /\ length (v_l (sr_x r)) = nl /\ length (v_v (sr_x r)) = nv /\
    length (v_y (sr_x r)) = nv /\
    forall k, (k < nv)%nat -> rg (v_y (sr_x r)) k = cb P k - times nz (cA P) z k.
  Proof.
    intros out E. open. destruct (result_vm RC out E) as [(V1 & V2 & V3 & V4) M]. auto 6.
  Qed.

  (* ------------------------------------------------------- C29 at the API *)
  (* The reported residual bounds every violation of the optimality conditions at the returned
     point: on SUCCESS, and on MAXITERATIONS by the Newton limit. *)
  Definition residual_reported (out : solver_out R) : Prop :=
    so_eflag out = SUCCESS \/ (so_eflag out = MAXITERATIONS /\ (so_prox out < p_max_prox o)%Z).
  Lemma reported out : sr_out r = Ok out -> residual_reported out ->
    exists D (DI : DataI R D) d, Explicit DI d P /\
    kkt_residual Rops DI d nz nl nv (p_alpha o) (sr_x r) = Ok (so_residual out) /\
    var_ok nz nl nv (sr_x r) /\ y_is_margin P (sr_x r).
  Proof.
    intros E RR. open. exists D, DI, d. split; [exact EX|].
    destruct (start_point_exists Rops LA R_zero_eq SC) as [x0 E0].
    split; [|exact (result_vm RC out E)].
    destruct RR as [F|[F L]].
    - apply (C08_success_residual Rops LA R_zero_eq SC out x0 E E0 F).
    - apply (C10_maxiter_residual Rops LA R_zero_eq SC out x0 E E0 F); exact L.
  Qed.
  Theorem C29_solve_bounds : forall out, sr_out r = Ok out -> residual_reported out ->
    let eps := so_residual out in let alpha := p_alpha o in
    sqrt (rsum nz (fun i => lagr P z l v i * lagr P z l v i)) <= eps /\
    sqrt (rsum nl (fun k => (times nz (cG P) z k - ch P k) * (times nz (cG P) z k - ch P k))) <= eps /\
    (forall k, (k < nv)%nat ->
       times nz (cA P) z k <= cb P k + eps / alpha /\ - (eps / alpha) <= v k /\
       (0 < margin P z k -> 0 < v k ->
        Rmin (margin P z k) (v k) <= eps / alpha /\ margin P z k * v k <= eps / (1 - alpha))).
  Proof.
    intros out E RR. cbv zeta. destruct (reported out E RR) as (D & DI & d & EX & K & V & Y).
    apply (C29_approximate_kkt DI d P EX (p_alpha o) (sr_x r) (so_residual out) (so_residual out)); auto;
      [eapply solve_alpha; exact call|lra].
  Qed.
  Theorem C29_solve_objective : forall out w, sr_out r = Ok out -> residual_reported out ->
    convex P -> feasible P w ->
    let eps := so_residual out in let alpha := p_alpha o in
    objective P z <= objective P w + eps * rsum nz (fun i => Rabs (w i - z i)) +
      eps * rsum nl (fun k => Rabs (l k)) + eps / alpha * rsum nv (fun k => margin P w k) +
      INR nv * (eps / (1 - alpha) + eps / alpha * (eps / alpha)).
  Proof.
    intros out w E RR CV F. cbv zeta. destruct (reported out E RR) as (D & DI & d & EX & K & V & Y).
    apply (C29_objective_gap DI d P EX (p_alpha o) (sr_x r) (so_residual out) (so_residual out) w); auto;
      [eapply solve_alpha; exact call|lra].
  Qed.
  (* on SUCCESS that residual is at most the tolerance, or the last proximal step was tiny (before
     the first step the code uses the all-ones vector) *)
  Theorem C29_success_tolerance : forall out, sr_out r = Ok out -> so_eflag out = SUCCESS ->
    so_residual out <= solve_tolerance P o \/
    match c_step (after (start_at P x) (sr_trace r)) with
    | Some dx => var_norm Rops dx <= p_stall_tol o
    | None => sqrt (INR (nz + nl + nv)) <= p_stall_tol o
    end.
  Proof.
    intros out E F. open.
    pose proof (br_start Rops _ _ _ _ _ _ _ _ _ _ _ _ _ CD) as E0. rewrite (start_is RC) in E0.
    destruct (C08_success_residual Rops LA R_zero_eq SC out _ E E0 F) as [_ [H|H]].
    - left. rewrite <- (tol_is D DI d EX). apply Rleb_true. exact H.
    - right. destruct (c_step _); apply Rleb_true in H; [exact H|].
      revert H. apply Rle_trans. right. unfold var_norm, all_ones. cbn [v_z v_l v_v o_sqrt o_add o_mul Rops]. f_equal.
      rewrite !plus_INR. rewrite !norm_sq, !vconst_len.
      assert (K : forall n, rsum n (fun i => rg (vconst n 1) i * rg (vconst n 1) i) = INR n).
      { intro n. rewrite (rsum_ext n _ (fun _ => 1)); [rewrite rsum_const; lra|].
        intros i Hi. rewrite rg_const by exact Hi. ring. }
      change (o_one Rops) with 1. rewrite !K. reflexivity.
  Qed.

  (* ------------------------------------------------------- C28 at the API *)
  Theorem C28_zero_residual_global_optimum : forall out, sr_out r = Ok out -> residual_reported out ->
    so_residual out = 0 -> convex P -> KKT P z l v /\ minimiser P z.
  Proof.
    intros out E RR E0 CV. destruct (reported out E RR) as (D & DI & d & EX & K & V & Y).
    rewrite E0 in K. apply (C27_zero_residual_iff_kkt DI d P EX) in K; auto; [|eapply solve_alpha; exact call].
    split; [exact K|]. eapply C28_kkt_minimiser; eassumption.
  Qed.

  (* ---------------------------------------------------------------- C31 *)
  Lemma flagged out : sr_out r = Ok out ->
    so_eflag out = PRIMAL_INFEASIBLE \/ so_eflag out = DUAL_INFEASIBLE \/ so_eflag out = PRIMAL_DUAL_INFEASIBLE ->
    (so_eflag out = PRIMAL_INFEASIBLE \/ so_eflag out = PRIMAL_DUAL_INFEASIBLE <->
       primal_certificate P (p_infeas_tol o) l v) /\
    (so_eflag out = DUAL_INFEASIBLE \/ so_eflag out = PRIMAL_DUAL_INFEASIBLE <->
       dual_certificate P (p_infeas_tol o) z).
  Proof.
    intros E F. open. destruct (start_point_exists Rops LA R_zero_eq SC) as [x0 E0].
    destruct (C11_certificate Rops LA R_zero_eq SC out x0 E E0 F) as (_ & tz & tl & tv & fs & L1 & L2 & L3 & FT & FL).
    destruct (result_vm RC out E) as [V _].
    destruct (C31_C32_test_exact DI d P EX tz tl tv (p_infeas_tol o) (sr_x r)) as (fs' & FT' & I1 & I2); auto.
    { exact (cd_nv _ _ _ _ _ _ _ _ _ _ _ _ _ _ CD). }
    { eapply solve_itol; exact call. }
    rewrite FT in FT'. injection FT' as <-. rewrite <- I1, <- I2, FL.
    destruct fs; split; split; intros [K|K]; try discriminate; auto.
  Qed.

  (* PRIMAL_INFEASIBLE: the returned (l,v) are approximate Farkas multipliers *)
  Theorem C31_solve_primal_infeasible : forall out, sr_out r = Ok out ->
    so_eflag out = PRIMAL_INFEASIBLE \/ so_eflag out = PRIMAL_DUAL_INFEASIBLE ->
    primal_certificate P (p_infeas_tol o) l v /\
    forall w, feasible P w ->
      0 < - dual_value P l v <=
        p_infeas_tol o * Rmax (maxabs nv v) (maxabs nl l) * norm1 nz w +
        rsum nv (fun k => Rmax 0 (- v k) * margin P w k).
  Proof.
    intros out E F. destruct (flagged out E) as [I1 _]; [tauto|]. apply I1 in F.
    split; [exact F|]. intros w Fw. split; [destruct F; lra|]. apply C31_certificate_bound; assumption.
  Qed.

  (* ---------------------------------------------------------------- C32 *)
  Theorem C32_solve_dual_infeasible : forall out, sr_out r = Ok out ->
    so_eflag out = DUAL_INFEASIBLE \/ so_eflag out = PRIMAL_DUAL_INFEASIBLE -> convex P ->
    dual_certificate P (p_infeas_tol o) z /\
    (* every dual feasible point is far away *)
    (forall w l' v', (forall i, (i < nz)%nat -> lagr P w l' v' i = 0) ->
       (forall k, (k < nv)%nat -> 0 <= v' k) ->
       0 < - rsum nz (fun i => cf P i * z i) <=
       p_infeas_tol o * maxabs nz z * (norm1 nz w + norm1 nl l' + norm1 nv v')) /\
    (* the objective decreases along z, which is almost a direction of recession *)
    (forall w t, 0 <= t -> feasible P w ->
       let w' := fun i => w i + t * z i in
       let m := p_infeas_tol o * maxabs nz z in
       (forall k, (k < nv)%nat -> times nz (cA P) w' k <= cb P k + t * m) /\
       (forall k, (k < nl)%nat -> Rabs (times nz (cG P) w' k - ch P k) <= t * m) /\
       objective P w' <= objective P w + t * rsum nz (fun i => cf P i * z i) +
         m * (t * norm1 nz w + t * t / 2 * norm1 nz z)).
  Proof.
    intros out E F [SY CV]. destruct (flagged out E) as [_ I1]; [tauto|]. apply I1 in F.
    split; [exact F|]. split.
    - intros w l' v' HL HV. apply C32_certificate_sound; auto. eapply solve_itol; exact call.
    - intros w t Ht Fw. apply C32_ray_descent; assumption.
  Qed.

  (* ---------------------------------------------------------------- C39 *)
  Theorem C39_warm_start : KKT P (rg (v_z x)) (rg (v_l x)) (rg (v_v x)) ->
    p_inner_tol_min o <= p_inner_tol_max o ->
    sr_out r = Ok (mkOut SUCCESS 0 0 0 el 0) /\
    v_z (sr_x r) = v_z x /\ v_l (sr_x r) = v_l x /\ v_v (sr_x r) = v_v x.
  Proof.
    intros K TO. open.
    pose proof (br_start Rops _ _ _ _ _ _ _ _ _ _ _ _ _ CD) as ST.
    destruct (vm_start RC) as [V0 M0].
    assert (RS : kkt_residual Rops DI d nz nl nv (p_alpha o) (pstart (prob_of Rops DI d nz nl nv pinit pst o) x) = Ok 0).
    { apply (C27_zero_residual_iff_kkt DI d P EX); auto. eapply solve_alpha; exact call. }
    destruct (C39_converged_guess Rops LA R_zero_eq _ _ _ _ _ _ _ _ _ _ _ _ SC ST RS) as (K1 & K2 & K3).
    - rewrite (tol_is D DI d EX). apply Rleb_true. unfold solve_tolerance.
      destruct (solve_tol _ _ _ _ _ _ call) as [T1 T2].
      assert (0 <= p_rel_tol o * (1 + sqrt (rsum nz (fun i => cf P i * cf P i) +
         rsum nl (fun i => ch P i * ch P i) + rsum nv (fun i => cb P i * cb P i)))).
      { apply Rmult_le_pos; [exact T2|]. assert (Q := sqrt_pos (rsum nz (fun i => cf P i * cf P i) +
         rsum nl (fun i => ch P i * ch P i) + rsum nv (fun i => cb P i * cb P i))). lra. }
      cbn. lra.
    - apply Rltb_false. exact TO.
    - rewrite K2. cbn [pstart v_z v_l v_v]. auto.
  Qed.
  (* without the ordering of the inner tolerances, Solve throws, even at a solution *)
  Theorem C39_reversed_tolerances : p_inner_tol_max o < p_inner_tol_min o ->
    sr_out r = Throw ESaturate.
  Proof.
    intros TO. open. rewrite (cd_run _ _ _ _ _ _ _ _ _ _ _ _ _ _ CD). unfold psolve, saturate.
    apply Rltb_true in TO. cbn [o_ltb Rops]. rewrite TO. reflexivity.
  Qed.
End ApiR.
Arguments residual_reported o out : clear implicits.

(* ---------- a concrete call: minimise x^2/2 - x, x <= 1, from the solution ---------- *)
Definition qp1 : dense_qp R :=
  mkDQP (mkMat 1 1 [1]) [-1] (mkMat 0 1 []) [] (mkMat 1 1 [1]) [1].
Definition x1 : var R := mkVar [1] [] [0] [0].
Definition g1 : garbage R := mkGarbage (fun _ => 0) (fun _ => 0) (fun _ => 0) (fun _ _ _ => 0).
Example dense_call_R (LA : LinAlg R) : exists r, 
  solves LA (qp_of (q_H qp1) (q_f qp1) (q_G qp1) (q_h qp1) (q_A qp1) (q_b qp1)) (DefaultParameters Rops) x1 0 r /\ KKT (qp_of (q_H qp1) (q_f qp1) (q_G qp1) (q_h qp1) (q_A qp1) (q_b qp1)) (rg (v_z x1)) (rg (v_l x1)) (rg (v_v x1)) /\ convex (qp_of (q_H qp1) (q_f qp1) (q_G qp1) (q_h qp1) (q_A qp1) (q_b qp1)) /\
  sr_out r = Ok (mkOut SUCCESS 0 0 0 0 0) /\ residual_reported (DefaultParameters Rops) (mkOut SUCCESS 0 0 0 0 0).
Proof.
  destruct (FBstabDense_new Rops g1 1 0 1) as [s|e|u] eqn:E; [|discriminate E|discriminate E].
  destruct (dense_new_inv Rops g1 1 0 1 s E) as [_ EO].
  assert (K : KKT (qp_of (q_H qp1) (q_f qp1) (q_G qp1) (q_h qp1) (q_A qp1) (q_b qp1)) (rg (v_z x1)) (rg (v_l x1)) (rg (v_v x1))).
  { split; [|split; [split|]]; cbn; intros [|k] Hk; try lia; unfold lagr, times, ttimes, margin; cbn; unfold times; cbn; try lra. }
  pose proof (sv_dense LA 1 0 1 s qp1 _ Mapped x1 0 (dr_new _ _ _ _ _ g1 s E) eq_refl) as S.
  eexists. rewrite EO in S. split; [apply S|].
  - injection E as <-. reflexivity.
  - reflexivity.
  - split; [exact K|]. split; [|split].
    + split; [|intros z0; unfold quad; cbn; nra]. cbn. intros [|i] [|j] Hi Hj; try lia. reflexivity.
    + eapply C39_warm_start; [apply S|exact K|].
      * injection E as <-. reflexivity.
      * reflexivity.
      * cbn. unfold Rdec; cbn. lra.
    + left. reflexivity.
Qed.

Print Assumptions C15_output_margin.
Print Assumptions C29_solve_objective.
Print Assumptions C39_warm_start.
