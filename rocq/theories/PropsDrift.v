(* C64 in the numbers Solve reports: how far y can have drifted from b - Az after the reported
   number of Newton iterations, on doubles.  Step lengths are never above 1 on doubles either. *)
From Verif Require Import PropsSlack.
From Verif Require Shape.
From Verif Require Import BinOps Examples.
From Flocq Require Import Core BinarySingleNaN.
From Coq Require Import Reals Lra Lia List.
Import ListNotations.
Local Open Scope R_scope.

Lemma Bmul_le1 a b : Rabs (Bval a) <= 1 -> Rabs (Bval b) <= 1 -> Rabs (Bval (Bmul a b)) <= 1.
Proof.
  intros Ha Hb. pose proof (Bmult_correct 53 1024 _ _ mode_NE a b) as C. unfold Bval, Bmul in *.
  cbn [round_mode] in C.
  set (r := round radix2 _ _ _) in C.
  assert (M : Rabs r <= 1).
  { unfold r. apply abs_round_le_generic.
    - apply (fexp_correct 53 1024). reflexivity.
    - apply valid_rnd_N.
    - change 1 with (bpow radix2 0). apply generic_format_bpow. cbn. lia.
    - rewrite Rabs_mult. pose proof (Rabs_pos (B2R a)). pose proof (Rabs_pos (B2R b)). nra. }
  rewrite Rlt_bool_true in C.
  - destruct C as [C _]. rewrite C. exact M.
  - apply Rle_lt_trans with (1 := M). change 1 with (bpow radix2 0). apply bpow_lt. lia.
Qed.

Lemma solve_beta_B LA D DI d nz nl nv o x el r : solve_call Bops LA D DI d nz nl nv o x el r ->
  Rabs (Bval (p_beta o)) <= 1.
Proof.
  intros SC. destruct (call_opts doubles_B LA default_B zero_eq_B _ _ _ _ _ _ _ _ _ _ SC) as [o0 ->].
  cbn [p_beta validated].
  destruct (oa_dec _ _ doubles_B (p_beta o0)) as [N|N].
  - destruct (sat_between ord_B (p_beta o0) (o_dec Bops 1 (-1)) (o_dec Bops 99 (-2)) N (ll_beta _ (oa_lit _ _ doubles_B))) as [H1 H2].
    match goal with |- Rabs (Bval ?v) <= 1 => set (b := v) in * end.
    assert (F1 : Bfin (o_dec Bops 1 (-1))) by (vm_compute; reflexivity).
    assert (F2 : Bfin (o_dec Bops 99 (-2))) by (vm_compute; reflexivity).
    destruct (is_finite b) eqn:F.
    + apply (rd_leb _ _ _ _ _ Brounded) in H1; [|exact F1|exact F].
      apply (rd_leb _ _ _ _ _ Brounded) in H2; [|exact F|exact F2].
      assert (P1 : Bltb (B754_zero false) (o_dec Bops 1 (-1)) = true) by (vm_compute; reflexivity).
      apply (rd_ltb _ _ _ _ _ Brounded) in P1; [|reflexivity|exact F1].
      assert (P2 : Bleb (o_dec Bops 99 (-2)) (Bint 1) = true) by (vm_compute; reflexivity).
      apply (rd_leb _ _ _ _ _ Brounded) in P2; [|exact F2|apply Bint1]. destruct Bint1 as (_ & B1). rewrite B1 in P2.
      change (Bval (B754_zero false)) with 0 in P1. apply Rabs_le. lra.
    + destruct b; try discriminate F; cbn; rewrite Rabs_R0; lra.
  - rewrite (sat_nan ord_B) by exact N.
    destruct (p_beta o0) as [s|s| |s m e B] eqn:E; cbn; try (rewrite Rabs_R0; lra). exfalso. apply N. apply fin_num. reflexivity.
Qed.

Lemma power_le1 o j : Rabs (Bval (p_beta o)) <= 1 -> forall t, Rabs (Bval t) <= 1 ->
  Rabs (Bval (beta_pow Bops o j t)) <= 1.
Proof.
  intro Hb. induction j as [|j IH]; intros t Ht; [exact Ht|]. cbn [beta_pow]. apply IH. apply Bmul_le1; assumption.
Qed.

Section Doubles.
  Context (LA : LinAlg B64) {P : QP} {K : nat} {o : params B64} {x : var B64} {el : B64} {r : solve_result B64}.
  Hypothesis call : fsolves Bops Bval LA P K o x el r.
  Notation vv x := (fun i => B2R (vget Bops x i)).
  Notation finite_to n x := (forall i, (i < n)%nat -> is_finite (vget Bops x i) = true).

  (* no step is longer than the Newton direction *)
  Theorem C64_doubles_step_length : forall xc dx cm m0 t j acc x',
    In (GStep xc dx cm m0 t j acc x') (sr_trace r) -> Rabs (B2R t) <= 1.
  Proof.
    intros xc dx cm m0 t j acc x' Hin.
    destruct (fsolves_fcall Bops Bval LA Brounded _ _ _ _ _ _ call) as (D & DI & d & pinit & pst & stale & w & [SC _ _ _ _]).
    apply in_split in Hin. destruct Hin as (pre & post & ET).
    destruct (start_point_exists Bops LA zero_eq_B SC) as [x0 E0].
    pose proof (C37_line_search Bops LA zero_eq_B SC _ _ _ _ _ _ _ _ _ _ _ E0 ET) as H. cbv zeta in H.
    destruct H as (_ & _ & _ & _ & _ & -> & _). apply (power_le1 o j (solve_beta_B _ _ _ _ _ _ _ _ _ _ _ SC)).
    cbn [o_one Bops]. destruct Bint1 as [_ ->]. rewrite Rabs_R1. lra.
  Qed.

  (* M bounds, at every Newton step of the run, the sizes in row k: |y_k| + sum_j |A_kj z_j| at the
     point and |b_k| + sum_j |A_kj dz_j| along the direction *)
  Theorem C64_doubles_drift_iters : forall out M, sr_out r = Ok out ->
    so_eflag out = SUCCESS \/ so_eflag out = MAXITERATIONS ->
    finite_to (n_z P) (v_z (sr_x r)) -> finite_to (n_v P) (v_y (sr_x r)) -> (Z.of_nat K <= 2 ^ 47)%Z ->
    forall k, (k < n_v P)%nat -> 0 <= M ->
      (forall xc dx cm m0 t j acc x', In (GStep xc dx cm m0 t j acc x') (sr_trace r) ->
         Rabs (B2R (vget Bops (v_y xc) k)) +
         rsum (n_z P) (fun j => Rabs (cA P k j * B2R (vget Bops (v_z xc) j))) + mag_v P (vv (v_z dx)) k <= M) ->
      Rabs (B2R (vget Bops (v_y (sr_x r)) k) - (cb P k - times (n_z P) (cA P) (vv (v_z (sr_x r))) k)) <=
      INR K / 2 ^ 50 * (mag_v P (vv (v_z x)) k + 4 * M * IZR (so_newton out)) +
      / 2 ^ 1075 * (8 * INR K + (9 * INR K + 4 + 4 * row_sum P k) * (2 * IZR (so_newton out))).
  Proof.
    intros out M E F FZ FY HK k Hk HM HB. destruct (K_bound K HK) as [G1 G2].
    assert (NI : infeas (so_eflag out) = false) by (destruct F as [-> | ->]; reflexivity).
    pose proof (C64_slack_drift Brounded LA call out _ E NI FZ FY G1 G2 k Hk) as H.
    assert (PK : 0 <= INR K / 2 ^ 50).
    { apply Rmult_le_pos; [apply pos_INR|]. apply Rlt_le, Rinv_0_lt_compat. apply pow_lt. lra. }
    pose proof (drift_bound_steps Brounded (P:=P) (K:=K) (x:=x) (r:=r) (INR K / 2 ^ 50) k M PK HM) as Q.
    assert (N : INR (@steps _ r) = IZR (so_newton out)).
    { destruct (fsolves_fcall Bops Bval LA Brounded _ _ _ _ _ _ call) as (D & DI & d & pinit & pst & stale & w & [SC _ _ _ _]).
      destruct (Shape.C51_newton_steps Bops LA zero_eq_B SC) as [_ C].
      rewrite (C out E), <- INR_IZR_INZ. reflexivity. }
    rewrite N in Q. rewrite <- Beta_eq. eapply Rle_trans; [exact H|]. apply Q.
    intros a Ha. destruct a as [prev tol Ek xb|y Ei Eo|y yb|y m|xc dx cm m0 t j acc y'|y|dx];
      cbn [step_size step_floor]; try lra.
    pose proof (C64_doubles_step_length _ _ _ _ _ _ _ _ Ha) as T. pose proof (HB _ _ _ _ _ _ _ _ Ha) as B.
    assert (MP : 0 <= mag_v P (vv (v_z dx)) k).
    { unfold mag_v. apply Rplus_le_le_0_compat; [apply Rabs_pos|]. apply rsum_nonneg. intros; apply Rabs_pos. }
    unfold Bval in *. split; [|lra].
    pose proof (Rmult_le_compat_r _ _ _ MP T). lra.
  Qed.
End Doubles.

(* such an M exists for every run *)
Lemma C64_size_bound {P : QP} (l : list (ghost B64)) k : exists M, 0 <= M /\
  forall xc dx cm m0 t j acc x', In (GStep xc dx cm m0 t j acc x') l ->
    Rabs (B2R (vget Bops (v_y xc) k)) +
    rsum (n_z P) (fun j => Rabs (cA P k j * B2R (vget Bops (v_z xc) j))) +
    mag_v P (fun i => B2R (vget Bops (v_z dx) i)) k <= M.
Proof.
  induction l as [|a l (M & HM & H)]; [exists 0; split; [lra|intros; contradiction]|].
  destruct a as [prev tol Ek xb|y Ei Eo|y yb|y m|yc dy cm0 m1 t1 j1 acc1 y'|y|dx0];
    try (exists M; split; [exact HM|]; intros xc dx cm m0 t j acc x' [E|Hin]; [discriminate E|eapply H; exact Hin]).
  set (s := Rabs (B2R (vget Bops (v_y yc) k)) + rsum (n_z P) (fun j => Rabs (cA P k j * B2R (vget Bops (v_z yc) j))) +
            mag_v P (fun i => B2R (vget Bops (v_z dy) i)) k).
  exists (Rmax M s). split; [apply Rle_trans with M; [exact HM|apply Rmax_l]|].
  intros xc dx cm m0 t j acc x' [E|Hin].
  - injection E as -> -> _ _ _ _ _ _. apply Rmax_r.
  - eapply Rle_trans; [eapply H; exact Hin|apply Rmax_l].
Qed.
