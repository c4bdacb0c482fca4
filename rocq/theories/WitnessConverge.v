(* Non-vacuity of C57 and C58: a call with limits in the range of int that meets all their hypotheses and
   takes proximal and Newton steps. *)
From Verif Require Export PropsLineSearch Witness.
From Verif Require Import PropsOptions.
Local Open Scope R_scope.

(* minimise 500 z^2 subject to z / 1000 <= 1 / 10000, from z = 1.001e-7 *)
Definition qp4 : dense_qp R :=
  mkDQP (mkMat 1 1 [1000]) [0] (mkMat 0 1 []) [] (mkMat 1 1 [1/1000]) [1/10000].
Definition P4 : QP := qp_of (q_H qp4) (q_f qp4) (q_G qp4) (q_h qp4) (q_A qp4) (q_b qp4).
Definition x4 : var R := mkVar [1001/10000000000] [] [0] [0].
Definition s4 : pt := mkPt (fun _ => 0) (fun _ => 0) (fun _ => 0).
Definition mi4 : Z := 1073741823.
Definition o4 : params R :=
  mkParams 1 1 (1/10000000000) (999/1000) (7/10) (45/100) (1/10000) (1/10)
           (1/10000) 0 (1/10000000000) (1/100000000) (146/100000000) (146/100000000)
           2147483646 2 mi4 23 false true OFF.
Lemma o4_admissible : admissible Rops o4.
Proof.
  constructor; try (split); cbn; try (apply Rleb_true); unfold Rdec; cbn; try lra; unfold mi4; lia.
Qed.
Lemma qp4_kkt : bounded_solution P4 (1/10000) s4.
Proof.
  split; [|split; [lra|]].
  - split; [|split; [split|]]; cbn; intros [|k] Hk; try lia; unfold lagr, times, ttimes, margin, times; cbn; try lra.
  - cbn. intros [|k] Hk; try lia. unfold margin, times. cbn. lra.
Qed.
Lemma qp4_convex : convex P4.
Proof.
  split; [|intros z0; unfold quad; cbn; nra]. cbn. intros [|i] [|j] Hi Hj; try lia. reflexivity.
Qed.

Lemma fro4 : fro P4 = 1/1000.
Proof.
  unfold fro. rewrite <- (sqrt_square (1/1000)) by lra. apply (f_equal sqrt). cbn. lra.
Qed.
Lemma dist4 : pdist P4 (pt_of x4) s4 = 1001/10000000000.
Proof.
  unfold pdist, nrm. rewrite <- (sqrt_square (1001/10000000000)) by lra. apply (f_equal sqrt). unfold ip. cbn. lra.
Qed.
Lemma err4 : outer_error P4 o4 (pt_of x4) = 1001/10000000.
Proof.
  unfold outer_error, nrm. rewrite <- (sqrt_square (1001/10000000)) by lra. apply (f_equal sqrt). unfold ip. cbn.
  unfold lagr, margin, times, ttimes, pnat. cbn. rewrite Rmin_right by lra. rewrite (Rmax_left 0 0) by lra. lra.
Qed.
Lemma tol4 : solve_tolerance P4 o4 = 1/10000.
Proof. unfold solve_tolerance. cbn [p_abs_tol p_rel_tol o4]. ring. Qed.
Lemma mu4 : mu_of (p_alpha o4) = 2000/999.
Proof. unfold mu_of. cbn [p_alpha o4]. field. Qed.
Lemma kap4 : kappa_of P4 (p_alpha o4) (p_sigma0 o4) = 1001/999.
Proof.
  unfold kappa_of. rewrite mu4, fro4. cbn [p_sigma0 o4]. rewrite Rminus_diag_eq by reflexivity. rewrite Rabs_R0. field.
Qed.
Lemma lf4 : left_factor P4 o4 = 7001/999.
Proof. unfold left_factor. rewrite mu4, fro4. cbn [p_sigma0 o4]. field. Qed.
Lemma bud4 : error_budget o4 = 146/100000000 * (1/9999 + 2).
Proof. unfold error_budget. cbn [p_inner_tol_max p_inner_tol_min p_delta p_max_prox o4]. field. Qed.
Lemma sqrt2_bound : sqrt (INR (n_z P4 + n_l P4 + n_v P4)) <= 14143/10000.
Proof.
  cbn. rewrite <- (sqrt_square (14143/10000)) by lra. apply sqrt_le_1_alt. lra.
Qed.
Lemma rad4 : radius P4 o4 (1001/10000000000) (error_budget o4) = 1001/10000000000 + 3001/999 * (146/100000000 * (1/9999 + 2)).
Proof. unfold radius. rewrite kap4, mu4, bud4. field. Qed.
Lemma wt4 : 0 <= weight P4 o4 (1/10000) (1001/10000000000) (error_budget o4) <= 14145/10000.
Proof.
  unfold weight, entry_bound. rewrite rad4, fro4. split.
  - apply Rmult_le_pos; [lra|apply sqrt_pos].
  - eapply Rle_trans; [apply Rmult_le_compat_l; [lra|exact sqrt2_bound]|]. lra.
Qed.
Lemma cap4 : residual_cap P4 o4 (1/10000) (1001/10000000000) (1001/10000000) = 1001/10000000.
Proof.
  unfold residual_cap. rewrite rad4, lf4. apply Rmax_left. cbn [p_sigma0 p_inner_tol_max o4].
  destruct wt4 as [W0 W1]. eapply Rle_trans; [apply Rmult_le_compat_r; [lra|exact W1]|]. lra.
Qed.
Lemma prox4 : prox_needed P4 o4 (1/10000) (1001/10000000000) (error_budget o4) < 2.
Proof.
  unfold prox_needed. rewrite lf4, tol4. destruct wt4 as [W0 W1]. set (w := weight _ _ _ _ _) in *.
  unfold sq_bound. rewrite kap4, mu4, bud4. cbn [p_sigma0 o4]. cbv zeta.
  replace (w / (1/10000)) with (10000 * w) by field. clearbody w. clear -W0 W1.
  assert (W2 : w * w <= 14145/10000 * (14145/10000)) by (apply Rmult_le_compat; lra). lra.
Qed.
Lemma fifth n : INR n <= 5 * INR ((n + 4) / 5).
Proof.
  replace 5 with (INR 5) by (cbn; lra). rewrite <- mult_INR. apply le_INR.
  pose proof (Nat.div_mod (n + 4) 5 ltac:(lia)). pose proof (Nat.mod_upper_bound (n + 4) 5 ltac:(lia)). lia.
Qed.
Lemma enough4 : enough_iterations P4 o4 (1/10000) (1001/10000000000) (1001/10000000).
Proof.
  split; [|split].
  - rewrite cap4. unfold decrease_rate. cbn [p_eta p_beta p_max_ls p_inner_tol_min p_max_inner o4].
    change (Z.to_nat 23 - 1)%nat with 22%nat. pose proof (fifth (Z.to_nat mi4)) as K.
    rewrite INR_IZR_INZ, Z2Nat.id in K by (unfold mi4; lia).
    set (m := INR ((Z.to_nat mi4 + 4) / 5)) in *. clearbody m. unfold mi4 in K. cbn [pow]. lra.
  - exact prox4.
  - cbn. lia.
Qed.
Lemma L4 : pair_growth P4 (p_alpha o4) (p_sigma0 o4) = 4003003/999000.
Proof.
  unfold pair_growth, direction_growth, pivot_floor. rewrite fro4. cbn [p_sigma0 p_alpha o4].
  rewrite Rmin_left by lra. field.
Qed.
Lemma B4 : pair_size P4 o4 (1/10000) (1001/10000000000) (1001/10000000) = 373212848785374401/99890010000000000000.
Proof.
  unfold pair_size, inner_radius. rewrite cap4, rad4, kap4, mu4, fro4. cbn [p_sigma0 o4]. field.
Qed.
Lemma dm4 : pair_move P4 o4 (1/10000) (1001/10000000000) (1001/10000000) = 4007006003/2497500000000.
Proof. unfold pair_move. rewrite cap4, L4. field. Qed.
Lemma deep4 : searches_deep P4 o4 (1/10000) (1001/10000000000) (1001/10000000).
Proof.
  unfold searches_deep, safe_step. rewrite L4, B4, dm4. cbv zeta. unfold fb_curv, fb_mix, fb_lip.
  cbn [p_eta p_beta p_max_ls p_inner_tol_min o4]. split.
  - change (Z.to_nat 23 - 1)%nat with 22%nat. apply (Rmult_le_reg_r (1 + 1)); [lra|].
    match goal with |- _ <= ?a / ?b * _ => apply (Rmult_le_reg_r b); [lra|]; replace (a / b * (1 + 1) * b) with (2 * a) by (field; lra) end.
    cbn [pow]. lra.
  - cbn [n_v P4 qp_of qp4 q_A mr length]. 
    match goal with |- context [sqrt ?a] => replace (sqrt a) with 1 by (cbn; rewrite sqrt_1; reflexivity) end.
    unfold zero_tolerance. cbn. unfold Rdec. cbn. lra.
Qed.

Theorem witness_convergence : exists s0 s r, let LA := inst_la Rops in
  FBstabDense_new Rops g1 1 0 1 = Ok s0 /\ s = fst (FBstabDense_UpdateOptions Rops s0 o4) /\
  r = snd (FBstabDense_Solve Rops LA s qp4 Mapped x4 0) /\
  solves LA P4 o4 x4 0 r /\ convex P4 /\ bounded_solution P4 (1/10000) s4 /\
  enough_iterations P4 o4 (1/10000) (pdist P4 (pt_of x4) s4) (outer_error P4 o4 (pt_of x4)) /\
  searches_deep P4 o4 (1/10000) (pdist P4 (pt_of x4) s4) (outer_error P4 o4 (pt_of x4)) /\
  long_run r /\ exists out, sr_out r = Ok out /\ so_eflag out = SUCCESS.
Proof.
  cbv zeta. destruct (FBstabDense_new Rops g1 1 0 1) as [s0|e|u] eqn:E; [|discriminate E|discriminate E].
  destruct (dense_new_inv Rops g1 1 0 1 s0 E) as [_ EO]. exists s0.
  exists (fst (FBstabDense_UpdateOptions Rops s0 o4)). eexists. split; [reflexivity|]. split; [reflexivity|]. split; [reflexivity|].
  set (s := fst (FBstabDense_UpdateOptions Rops s0 o4)).
  assert (ES : ds_options s = o4) by (apply (proj1 (C02_update_preserves reals o4 o4_admissible))).
  pose proof (sv_dense (inst_la Rops) 1 0 1 s qp4 _ Mapped x4 0 (dr_update _ _ _ _ _ _ o4 (dr_new _ _ _ _ _ g1 s0 E)) eq_refl) as K.
  assert (C : solves (inst_la Rops) P4 o4 x4 0 (snd (FBstabDense_Solve Rops (inst_la Rops) s qp4 Mapped x4 0))).
  { rewrite ES in K. apply K; [|reflexivity].
    assert (SZ : ds_nz s = ds_nz s0 /\ ds_nl s = ds_nl s0 /\ ds_nv s = ds_nv s0).
    { unfold s, FBstabDense_UpdateOptions. destruct (UpdateParameters _ _ _); repeat split; reflexivity. }
    unfold dense_validate. destruct SZ as (-> & -> & ->). injection E as <-. reflexivity. }
  split; [exact C|]. split; [exact qp4_convex|]. split; [exact qp4_kkt|]. rewrite dist4, err4.
  split; [exact enough4|]. split; [exact deep4|].
  assert (T1 : p_inner_tol_min o4 <= p_inner_tol_max o4) by (cbn; lra).
  assert (T2 : p_inner_tol_min o4 <= solve_tolerance P4 o4) by (rewrite tol4; cbn; lra).
  destruct (C58_convergence _ _ _ _ _ _ inst_laws C qp4_convex s4 (1/10000) qp4_kkt T1 T2) as (out & EO1 & _ & SU & _).
  { rewrite dist4, err4. exact enough4. }
  { rewrite dist4, err4. exact deep4. }
  assert (G : sqrt (rsum (n_z P4) (fun i =>
     lagr P4 (rg (v_z x4)) (rg (v_l x4)) (rg (v_v x4)) i * lagr P4 (rg (v_z x4)) (rg (v_l x4)) (rg (v_v x4)) i)) = 1001/10000000).
  { rewrite <- (sqrt_square (1001/10000000)) by lra. apply (f_equal sqrt). unfold lagr, times, ttimes. cbn. lra. }
  assert (SS : p_stall_tol o4 < sqrt (INR (n_z P4 + n_l P4 + n_v P4))).
  { apply Rlt_le_trans with 1; [cbn; lra|]. rewrite <- sqrt_1 at 1. apply sqrt_le_1_alt. cbn. lra. }
  assert (G1 : solve_tolerance P4 o4 < sqrt (rsum (n_z P4) (fun i =>
     lagr P4 (rg (v_z x4)) (rg (v_l x4)) (rg (v_v x4)) i * lagr P4 (rg (v_z x4)) (rg (v_l x4)) (rg (v_v x4)) i))).
  { rewrite G, tol4. lra. }
  split; [split; [|split]|].
  - exists out. exact EO1.
  - destruct (takes_proximal_step _ _ _ _ _ _ inst_laws C qp4_convex T1 T2 G1 SS) as (prev & tol & Ek & l & y & post & E' & _).
    do 7 eexists. exact E'.
  - eapply (takes_newton_step _ _ _ _ _ _ inst_laws C qp4_convex T1 T2 G1 SS).
    eapply Rlt_le_trans; [|apply start_error]. rewrite G. cbn. apply Rmax_lub_lt; lra.
  - exists out. split; [exact EO1|]. apply SU. reflexivity.
Qed.
Print Assumptions witness_convergence.
