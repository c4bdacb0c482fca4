(* A problem that has neither a feasible point nor a bounded objective: the hypotheses of C70 are met, on doubles
   (a run stopped by the Newton limit) and on the reals (a SUCCESS by the stall test). *)
From Verif Require Import PropsUnsolvable WitnessFloat WitnessGap BinOps Examples.
From Flocq Require Import Core.Core IEEE754.BinarySingleNaN.
Local Open Scope R_scope.

(* minimise x^2/2 - y subject to x <= -1, -x <= 0 *)
Definition is_bad (P : QP) : Prop :=
  n_z P = 2%nat /\ n_l P = 0%nat /\ n_v P = 2%nat /\
  (cH P 0 0 = 1 /\ cH P 0 1 = 0 /\ cH P 1 0 = 0 /\ cH P 1 1 = 0) /\ (cf P 0 = 0 /\ cf P 1 = -1) /\
  (cA P 0 0 = 1 /\ cA P 0 1 = 0 /\ cA P 1 0 = -1 /\ cA P 1 1 = 0) /\ (cb P 0 = -1 /\ cb P 1 = 0).
Definition zero2 : nat -> R := tbl [].
Definition ones2 : nat -> R := tbl [1; 1].
Definition up : nat -> R := tbl [0; 1].
Ltac two i Hi := destruct i as [|[|i]]; [| |exfalso; lia].
Lemma bad_facts P : is_bad P -> convex P /\ contradiction P zero2 ones2 /\ descent_ray P up.
Proof.
  intros (N1 & N2 & N3 & (h00 & h01 & h10 & h11) & (f0 & f1) & (a00 & a01 & a10 & a11) & (b0 & b1)).
  split; [split|split; constructor]; unfold quad, times, ttimes; rewrite ?N1, ?N2, ?N3; cbn [rsum]; unfold zero2, ones2, up, tbl; cbn [nth].
  - intros i j Hi Hj. two i Hi; two j Hj; congruence.
  - intro z. rewrite h00, h01, h10, h11. nra.
  - intros i Hi. two i Hi; rewrite ?a00, ?a01, ?a10, ?a11; ring.
  - intros k Hk. two k Hk; cbn; lra.
  - rewrite b0, b1. lra.
  - intros i Hi. two i Hi; rewrite ?h00, ?h01, ?h10, ?h11; ring.
  - intros k Hk. exfalso; lia.
  - intros k Hk. two k Hk; rewrite ?a00, ?a01, ?a10, ?a11; lra.
  - rewrite f0, f1. lra.
Qed.

(* ---------- doubles ---------- *)
Definition qp_bad_B : dense_qp B64 :=
  mkDQP (bm_ 2 2 [1;0;0;0])%Z (bv_ [0;-1])%Z (bm_ 0 2 []) (bv_ []) (bm_ 2 2 [1;0;-1;0])%Z (bv_ [-1;0])%Z.
Definition qp_bad_F : QP := qp_val (O:=Bops) (val:=Bval) (q_H qp_bad_B) (q_f qp_bad_B) (q_G qp_bad_B) (q_h qp_bad_B) (q_A qp_bad_B) (q_b qp_bad_B).
Lemma qp_bad_is : is_bad qp_bad_F.
Proof.
  assert (Z : B2R (Bint 0) = 0) by exact (Bint_small 0 ltac:(cbn; tauto)).
  assert (U : B2R (Bint 1) = 1) by exact (Bint_small 1 ltac:(cbn; tauto)).
  assert (M : B2R (Bint (-1)) = -1) by exact (Bint_small (-1) ltac:(cbn; tauto)).
  unfold is_bad. split; [reflexivity|]. split; [reflexivity|]. split; [reflexivity|].
  repeat match goal with |- _ /\ _ => split end; first [exact Z|exact U|exact M].
Qed.
Example C70_doubles_example : exists K o r out,
  fsolves Bops Bval LAB qp_bad_F K o (bx_ [0;0] [] [0;0] [])%Z (Bint 0) r /\ (Z.of_nat K <= 2 ^ 47)%Z /\
  sr_out r = Ok out /\ known_residual o out /\ is_finite (so_residual out) = true /\ is_finite (p_alpha o) = true /\
  so_newton out = 3%Z /\ convex qp_bad_F /\ contradiction qp_bad_F zero2 ones2 /\ descent_ray qp_bad_F up.
Proof.
  edestruct (dcall_fsolves Bops Bval LAB b0 2 0 2 (with_newton_limit 3 dflt_B) qp_bad_B Owned (bx_ [0;0] [] [0;0] [])%Z (Bint 0) (fun o r => stopped o r = true)) as (o & r & H1 & H2);
    [exact I|vm_compute; reflexivity|].
  unfold stopped in H2. destruct (sr_out r) as [out|e|u] eqn:E; try discriminate. rewrite !andb_true_iff in H2. destruct H2 as ((((F & H2) & H3) & H5) & H4).
  exists 8%nat, o, r, out. split; [exact H1|]. split; [vm_compute; discriminate|]. split; [exact E|].
  split; [right; split; [destruct (so_eflag out); congruence|apply Z.ltb_lt; exact H4]|]. split; [exact H2|]. split; [exact H3|].
  split; [apply Z.eqb_eq; exact H5|]. exact (bad_facts _ qp_bad_is).
Qed.

(* ---------- reals: the defaults, but a stall tolerance of 2 ---------- *)
Definition qp_bad_R : dense_qp R :=
  mkDQP (mkMat 2 2 [1;0;0;0]) [0;-1] (mkMat 0 2 []) [] (mkMat 2 2 [1;-1;0;0]) [-1;0].
Definition x_bad : var R := mkVar [0;0] [] [0;0] [0;0].
Definition o_stall : params R :=
  let o := DefaultParameters Rops in
  mkParams (p_sigma0 o) (p_sigma_max o) (p_sigma_min o) (p_alpha o) (p_beta o) (p_eta o) (p_delta o)
    (p_gamma o) (p_abs_tol o) (p_rel_tol o) 2 (p_infeas_tol o) (p_inner_tol_max o)
    (p_inner_tol_min o) (p_max_newton o) (p_max_prox o) (p_max_inner o) (p_max_ls o) (p_check_feas o) (p_nonmonotone o) (p_display o).
Definition P_bad : QP := qp_of (q_H qp_bad_R) (q_f qp_bad_R) (q_G qp_bad_R) (q_h qp_bad_R) (q_A qp_bad_R) (q_b qp_bad_R).
Lemma P_bad_is : is_bad P_bad.
Proof. repeat split. Qed.
Lemma o_stall_admissible : admissible Rops o_stall.
Proof. constructor; try (split); cbn; try (apply Rleb_true); unfold Rdec; cbn; try lra; lia. Qed.
(* a stall tolerance above the norm of the all-ones vector: the first test passes *)
Lemma stall_at_once LA P x el r : solves LA P o_stall x el r -> sqrt (INR (n_z P + n_l P + n_v P)) <= 2 ->
  exists out, sr_out r = Ok out /\ so_eflag out = SUCCESS.
Proof.
  intros call SN. destruct (solves_rcall _ _ _ _ _ _ call) as (D & DI & d & pinit & pst & stale & w & RC).
  pose proof (rc_cd _ _ _ _ _ _ _ _ _ _ _ _ _ RC) as CD.
  rewrite (cd_run _ _ _ _ _ _ _ _ _ _ _ _ _ _ CD). unfold psolve, saturate.
  assert (TO : Rltb (p_inner_tol_max o_stall) (p_inner_tol_min o_stall) = false).
  { apply Rltb_false. cbn. unfold Rdec; cbn. lra. }
  cbn [o_ltb Rops]. rewrite TO. cbn [wlift wbind wlog].
  destruct (Z.to_nat (p_max_prox o_stall)) as [|fuel] eqn:EF; [discriminate EF|]. cbn [pprox].
  match goal with |- context [orb _ ?b] => replace b with true end; [rewrite orb_true_r; eexists; split; reflexivity|].
  symmetry. apply Rleb_true. cbn [p_stall_tol o_stall]. eapply Rle_trans; [|exact SN]. right.
  unfold var_norm, all_ones. cbn [v_z v_l v_v o_sqrt o_add o_mul Rops]. f_equal.
  unfold pones. cbn [v_z v_l v_v]. rewrite !plus_INR. rewrite !norm_sq, !vconst_len.
  assert (K : forall n, rsum n (fun i => rg (vconst n 1) i * rg (vconst n 1) i) = INR n).
  { intro n. rewrite (rsum_ext n _ (fun _ => 1)); [rewrite rsum_const; lra|].
    intros i Hi. rewrite rg_const by exact Hi. ring. }
  change (o_one Rops) with 1. rewrite !K. reflexivity.
Qed.

Example C70_reals_example (LA : LinAlg R) : exists r out,
  solves LA P_bad o_stall x_bad 0 r /\ sr_out r = Ok out /\ so_eflag out = SUCCESS /\ residual_reported o_stall out /\
  convex P_bad /\ contradiction P_bad zero2 ones2 /\ descent_ray P_bad up /\
  solve_tolerance P_bad o_stall * (norm1 (n_l P_bad) zero2 + rsum (n_v P_bad) ones2 / p_alpha o_stall) <
    - (rsum (n_l P_bad) (fun k => ch P_bad k * zero2 k) + rsum (n_v P_bad) (fun k => cb P_bad k * ones2 k)) /\
  solve_tolerance P_bad o_stall * (norm1 (n_z P_bad) up + rsum (n_v P_bad) (fun k => - times (n_z P_bad) (cA P_bad) up k) / p_alpha o_stall) <
    - rsum (n_z P_bad) (fun i => cf P_bad i * up i).
Proof.
  destruct (FBstabDense_new Rops g1 2 0 2) as [s0|e|u] eqn:E; [|discriminate E|discriminate E].
  set (s := fst (FBstabDense_UpdateOptions Rops s0 o_stall)).
  assert (ES : ds_options s = o_stall) by (apply (proj1 (C02_update_preserves reals o_stall o_stall_admissible))).
  pose proof (sv_dense LA 2 0 2 s qp_bad_R _ Mapped x_bad 0 (dr_update _ _ _ _ _ _ o_stall (dr_new _ _ _ _ _ g1 s0 E)) eq_refl) as K.
  assert (C : solves LA P_bad o_stall x_bad 0 (snd (FBstabDense_Solve Rops LA s qp_bad_R Mapped x_bad 0))).
  { rewrite ES in K. apply K; [|reflexivity].
    assert (SZ : ds_nz s = ds_nz s0 /\ ds_nl s = ds_nl s0 /\ ds_nv s = ds_nv s0).
    { unfold s, FBstabDense_UpdateOptions. destruct (UpdateParameters _ _ _); repeat split; reflexivity. }
    unfold dense_validate. destruct SZ as (-> & -> & ->). injection E as <-. reflexivity. }
  eexists. destruct (stall_at_once LA _ _ _ _ C) as (out & EO & F).
  { replace 2 with (sqrt (2 * 2)) by (apply sqrt_square; lra). apply sqrt_le_1_alt. cbn. lra. }
  exists out. split; [exact C|]. split; [exact EO|]. split; [exact F|]. split; [left; exact F|].
  destruct (bad_facts _ P_bad_is) as (B1 & B2 & B3). split; [exact B1|]. split; [exact B2|]. split; [exact B3|].
  assert (T : solve_tolerance P_bad o_stall <= 1/100000).
  { unfold solve_tolerance. match goal with |- context [sqrt ?a] => assert (S2 : sqrt a <= 2) end.
    { replace 2 with (sqrt (2 * 2)) by (apply sqrt_square; lra). apply sqrt_le_1_alt. cbn. lra. }
    cbn [p_abs_tol p_rel_tol o_stall DefaultParameters]. cbn. unfold Rdec; cbn. cbn in S2. lra. }
  set (t := solve_tolerance P_bad o_stall) in *. clearbody t.
  unfold norm1, times. cbn. unfold Rdec; cbn. unfold zero2, ones2, up, tbl; cbn. rewrite ?Rabs_R0, ?Rabs_R1. split; lra.
Qed.
