(* C63: what SUCCESS certifies when the arithmetic rounds.  The general theorems hold for every arithmetic
   obeying Rounding.v; the doubles theorems are their instance for IEEE binary64 (BinOps.v). *)
From Verif Require Export FloatRun.
From Verif Require Import BinOps.
From Flocq Require Import Core.Core IEEE754.BinarySingleNaN.
Local Open Scope R_scope.

(* What the four computed vectors and the reported residual say about the exact problem P:
   g bounds the relative rounding error of a residual entry, e the underflow threshold. *)
Record certified (P : QP) (K : nat) (g e alpha : R) (residual : R) (z l v y : nat -> R) : Prop := {
  (* the gradient of the Lagrangian: |f + H z + G'l + A'v|_i *)
  ce_stationary : forall i, (i < n_z P)%nat ->
    Rabs (cf P i + times (n_z P) (cH P) z i + ttimes (n_l P) (cG P) l i + ttimes (n_v P) (cA P) v i) <=
    (1 + 10 * g) * (residual + 8 * sqrt (INR (n_z P + n_l P + n_v P + 1) * e)) + g * mag_z P z l v i + 16 * INR K * e;
  (* the equations: |h - G z|_k *)
  ce_equality : forall k, (k < n_l P)%nat ->
    Rabs (ch P k - times (n_z P) (cG P) z k) <=
    (1 + 10 * g) * (residual + 8 * sqrt (INR (n_z P + n_l P + n_v P + 1) * e)) + g * mag_l P z k + 8 * INR K * e;
  (* complementarity of the multiplier and of the slack the solver carries: |min(y,v)|_k *)
  ce_complementary : forall k, (k < n_v P)%nat ->
    alpha * Rabs (Rmin (y k) (v k)) <=
    (1 + 6 * g) * ((1 + 10 * g) * (residual + 8 * sqrt (INR (n_z P + n_l P + n_v P + 1) * e)) + 2 * e) }.

Section General.
  Context {T : Type} {O : Ops T} {fin : T -> Prop} {val : T -> R} {u eta : R}.
  Hypothesis W : Rounded O fin val u eta.
  Context (LA : LinAlg T) {P : QP} {K : nat} {o : params T} {x : var T} {el : T} {r : solve_result T}.
  Hypothesis call : fsolves O val LA P K o x el r.
  Notation vv := (fun x i => val (vget O x i)).

  Lemma residual_certificate D (DI : DataI T D) d pinit pst stale w : fcall O val LA (fin:=fin) (u:=u) (eta:=eta) P K o x el r D DI d pinit pst stale w ->
    forall out g, sr_out r = Ok out -> kkt_residual O DI d (n_z P) (n_l P) (n_v P) (p_alpha o) (sr_x r) = Ok (so_residual out) ->
    fin (so_residual out) -> 0 < val (p_alpha o) <= 1 -> (1 + u) ^ (4 * K) <= 1 + g -> g <= 1 / 8 ->
    let x' := sr_x r in
    fins O fin (n_z P) (v_z x') /\ fins O fin (n_l P) (v_l x') /\ fins O fin (n_v P) (v_v x') /\ fins O fin (n_v P) (v_y x') /\
    certified P K g eta (val (p_alpha o)) (val (so_residual out)) (vv (v_z x')) (vv (v_l x')) (vv (v_v x')) (vv (v_y x')).
  Proof.
    intros [SC AP CD HK FY] out g E R Fr Ha Hg Hg'. cbv zeta.
    pose proof (call_exit O _ _ _ _ _ _ _ _ _ _ _ _ _ CD) as EX. rewrite E in EX. destruct EX as (_ & VO & _).
    assert (LE : o_leb O (so_residual out) (so_residual out) = true) by (apply (rd_leb _ _ _ _ _ W); [assumption|assumption|lra]).
    destruct (kkt_float W DI d P K (2 * INR K) AP ltac:(lia) g Hg Hg' (p_alpha o) (sr_x r) (so_residual out) (so_residual out) VO Ha R LE Fr)
      as (_ & F1 & F2 & F3 & F4 & B1 & B2 & B3).
    repeat (split; [assumption|]). unfold tiny in B1, B2, B3. constructor.
    - intros i Hi. specialize (B1 i Hi). unfold lagr in B1.
      match type of B1 with Rabs ?a <= _ => match goal with |- Rabs ?b <= _ => replace b with a by ring end end.
      lra.
    - intros k Hk. specialize (B2 k Hk). lra.
    - intros k Hk. exact (B3 k Hk).
  Qed.


  Theorem C63_success_certificate : forall out g, sr_out r = Ok out -> so_eflag out = SUCCESS ->
    fin (so_residual out) -> 0 < val (p_alpha o) <= 1 -> (1 + u) ^ (4 * K) <= 1 + g -> g <= 1 / 8 ->
    let x' := sr_x r in
    fins O fin (n_z P) (v_z x') /\ fins O fin (n_l P) (v_l x') /\ fins O fin (n_v P) (v_v x') /\ fins O fin (n_v P) (v_y x') /\
    certified P K g eta (val (p_alpha o)) (val (so_residual out)) (vv (v_z x')) (vv (v_l x')) (vv (v_v x')) (vv (v_y x')).
  Proof.
    intros out g E F Fr Ha Hg Hg'.
    destruct (fsolves_fcall O val LA W _ _ _ _ _ _ call) as (D & DI & d & pinit & pst & stale & w & FC). assert (SC := fc_call _ _ _ _ _ _ _ _ _ _ _ _ _ _ _ _ FC).
    destruct (start_point_exists O LA (fzero_eq O val W) SC) as (x0 & E0).
    destruct (C08_success_residual O LA (fzero_eq O val W) SC out x0 E E0 F) as (R & _).
    exact (residual_certificate D DI d pinit pst stale w FC out g E R Fr Ha Hg Hg').
  Qed.
  (* the same for a run stopped by the limit on Newton steps *)
  Theorem C63_maxiter_certificate : forall out g, sr_out r = Ok out -> so_eflag out = MAXITERATIONS ->
    (so_prox out < p_max_prox o)%Z ->
    fin (so_residual out) -> 0 < val (p_alpha o) <= 1 -> (1 + u) ^ (4 * K) <= 1 + g -> g <= 1 / 8 ->
    let x' := sr_x r in
    fins O fin (n_z P) (v_z x') /\ fins O fin (n_l P) (v_l x') /\ fins O fin (n_v P) (v_v x') /\ fins O fin (n_v P) (v_y x') /\
    certified P K g eta (val (p_alpha o)) (val (so_residual out)) (vv (v_z x')) (vv (v_l x')) (vv (v_v x')) (vv (v_y x')).
  Proof.
    intros out g E F LP Fr Ha Hg Hg'.
    destruct (fsolves_fcall O val LA W _ _ _ _ _ _ call) as (D & DI & d & pinit & pst & stale & w & FC). assert (SC := fc_call _ _ _ _ _ _ _ _ _ _ _ _ _ _ _ _ FC).
    destruct (start_point_exists O LA (fzero_eq O val W) SC) as (x0 & E0).
    destruct (C10_maxiter_residual O LA (fzero_eq O val W) SC out x0 E E0 F) as (R & _).
    exact (residual_certificate D DI d pinit pst stale w FC out g E (R LP) Fr Ha Hg Hg').
  Qed.

  (* the residual test with a finite tolerance can only be passed by a finite residual, and at a finite point *)
  Theorem C63_finite_tolerance : forall out tol, sr_out r = Ok out -> so_eflag out = SUCCESS ->
    o_leb O (so_residual out) tol = true -> fin tol -> fin (so_residual out) /\ val (so_residual out) <= val tol.
  Proof.
    intros out tol E F LE Ft.
    destruct (fsolves_fcall O val LA W _ _ _ _ _ _ call) as (D & DI & d & pinit & pst & stale & w & [SC AP CD HK FY]).
    destruct (start_point_exists O LA (fzero_eq O val W) SC) as (x0 & E0).
    destruct (C08_success_residual O LA (fzero_eq O val W) SC out x0 E E0 F) as (R & _).
    assert (Fr : fin (so_residual out)).
    { unfold kkt_residual in R. apply rbind_ok in R. destruct R as (q & _ & R). injection R as R.
      rewrite <- R in LE |- *. unfold rsd_norm in *. apply (rd_sqrt_le _ _ _ _ _ W _ _ LE Ft). }
    split; [exact Fr|]. apply (rd_leb _ _ _ _ _ W); assumption.
  Qed.
End General.

(* ------------------------------------------------------------------ IEEE binary64 *)
Definition Bnum (x : B64) : Prop := Scalar.Fnum (B2SF x).
Lemma ord_B : OrdLaws Bops Bnum.
Proof.
  constructor.
  - intros x y. apply (ol_leb_num _ _ ord_F).
  - intros x y. apply (ol_ltb_num _ _ ord_F).
  - intros x y. apply (ol_ltb _ _ ord_F).
  - intros x y. apply (ol_total _ _ ord_F).
  - intros x y z. apply (ol_trans _ _ ord_F).
  - apply (ol_zero_num _ _ ord_F).
Qed.
Lemma doubles_B : option_arith Bops Bnum.
Proof.
  constructor; [apply ord_B|constructor; vm_compute; reflexivity| |vm_compute; reflexivity].
  intro x. unfold Bnum, Scalar.Fnum. destruct x; cbn; try (left; discriminate). right. intro H. apply H. reflexivity.
Qed.
Lemma default_B : admissible Bops (DefaultParameters Bops).
Proof. apply admissibleb_ok. vm_compute. reflexivity. Qed.
Lemma zero_eq_B : o_eqb Bops (o_zero Bops) (o_zero Bops) = true.
Proof. reflexivity. Qed.
Lemma fin_num x : Bfin x -> Bnum x.
Proof. unfold Bfin, Bnum, Scalar.Fnum. destruct x; cbn; discriminate. Qed.

Lemma pow_bound u n : 0 <= u -> INR n * u <= 1 / 2 -> (1 + u) ^ n <= 1 + 2 * INR n * u.
Proof.
  intros Hu. induction n as [|n IH]; intro H; [cbn; lra|]. rewrite S_INR in *. cbn [pow].
  pose proof (pos_INR n) as Hn. assert (Q : 0 <= INR n * u) by (apply Rmult_le_pos; assumption).
  specialize (IH ltac:(lra)). assert (X : (1 + u) * (1 + u) ^ n <= (1 + u) * (1 + 2 * INR n * u)) by (apply Rmult_le_compat_l; lra).
  assert (Y : 2 * (INR n * u) * u <= u) by nra. lra.
Qed.
Lemma Bu_eq : Bu = / 2 ^ 53.
Proof. unfold Bu. cbn [Z.add Z.opp Z.pos_sub Pos.pred_double]. simpl bpow. lra. Qed.
Lemma Beta_eq : Beta = / 2 ^ 1075.
Proof.
  unfold Beta. change (-1074)%Z with (- (1074))%Z. rewrite bpow_opp.
  replace (bpow radix2 1074) with (2 ^ 1074) by (rewrite bpow_powerRZ; change 1074%Z with (Z.of_nat 1074); rewrite <- pow_powerRZ; reflexivity).
  rewrite <- Rinv_mult. f_equal.
Qed.
Lemma K_bound K : (Z.of_nat K <= 2 ^ 47)%Z -> (1 + Bu) ^ (4 * K) <= 1 + INR K / 2 ^ 50 /\ INR K / 2 ^ 50 <= 1 / 8.
Proof.
  intro H. apply IZR_le in H. rewrite <- INR_IZR_INZ in H. change (IZR (2 ^ 47)) with (IZR 140737488355328) in H.
  pose proof (pos_INR K) as HK. rewrite Bu_eq.
  assert (E : INR (4 * K) = 4 * INR K) by (rewrite mult_INR; cbn; ring).
  split; [|lra]. eapply Rle_trans; [apply pow_bound; [lra|rewrite E; lra]|]. rewrite E. lra.
Qed.

Lemma solve_alpha_B LA D DI d nz nl nv o x el r : solve_call Bops LA D DI d nz nl nv o x el r ->
  Bfin (p_alpha o) -> 0 < Bval (p_alpha o) <= 1.
Proof.
  intros SC F. destruct (call_opts doubles_B LA default_B zero_eq_B _ _ _ _ _ _ _ _ _ _ SC) as [o0 ->].
  cbn [p_alpha validated] in *.
  destruct (oa_dec _ _ doubles_B (p_alpha o0)) as [N|N].
  - destruct (sat_between ord_B (p_alpha o0) (o_dec Bops 1 (-3)) (o_dec Bops 999 (-3)) N (ll_alpha _ (oa_lit _ _ doubles_B))) as [H1 H2].
    assert (F1 : Bfin (o_dec Bops 1 (-3))) by (vm_compute; reflexivity).
    assert (F2 : Bfin (o_dec Bops 999 (-3))) by (vm_compute; reflexivity).
    apply (rd_leb _ _ _ _ _ Brounded) in H1; [|exact F1|exact F].
    apply (rd_leb _ _ _ _ _ Brounded) in H2; [|exact F|exact F2].
    assert (P1 : Bltb (B754_zero false) (o_dec Bops 1 (-3)) = true) by (vm_compute; reflexivity).
    apply (rd_ltb _ _ _ _ _ Brounded) in P1; [|reflexivity|exact F1].
    assert (P2 : Bleb (o_dec Bops 999 (-3)) (Bint 1) = true) by (vm_compute; reflexivity).
    apply (rd_leb _ _ _ _ _ Brounded) in P2; [|exact F2|apply Bint1]. destruct Bint1 as (_ & B1). rewrite B1 in P2.
    change (Bval (B754_zero false)) with 0 in P1. lra.
  - exfalso. apply N. rewrite (sat_nan ord_B) in F by exact N. apply fin_num. exact F.
Qed.

Section Doubles.
  Context (LA : LinAlg B64) {P : QP} {K : nat} {o : params B64} {x : var B64} {el : B64} {r : solve_result B64}.
  Hypothesis call : fsolves Bops Bval LA P K o x el r.
  Notation vv := (fun x i => B2R (vget Bops x i)).
  Notation finite_to n x := (forall i, (i < n)%nat -> is_finite (vget Bops x i) = true).

  (* a SUCCESS with a finite residual: K = nz+nl+nv+4 for the dense solver *)
  Theorem C63_doubles_certificate : forall out, sr_out r = Ok out -> so_eflag out = SUCCESS ->
    is_finite (so_residual out) = true -> is_finite (p_alpha o) = true -> (Z.of_nat K <= 2 ^ 47)%Z ->
    let x' := sr_x r in
    finite_to (n_z P) (v_z x') /\ finite_to (n_l P) (v_l x') /\ finite_to (n_v P) (v_v x') /\ finite_to (n_v P) (v_y x') /\
    certified P K (INR K / 2 ^ 50) (/ 2 ^ 1075) (B2R (p_alpha o)) (B2R (so_residual out))
              (vv (v_z x')) (vv (v_l x')) (vv (v_v x')) (vv (v_y x')).
  Proof.
    intros out E F Fr Fa HK. destruct (K_bound K HK) as [G1 G2]. rewrite <- Beta_eq.
    destruct (fsolves_fcall Bops Bval LA Brounded _ _ _ _ _ _ call) as (D & DI & d & pinit & pst & stale & w & [SC AP CD _ _]).
    apply (C63_success_certificate Brounded LA call out (INR K / 2 ^ 50) E F Fr); [|exact G1|exact G2].
    apply (solve_alpha_B _ _ _ _ _ _ _ _ _ _ _ SC Fa).
  Qed.
  (* a run stopped by the limit on Newton steps, with a finite residual *)
  Theorem C63_doubles_maxiter : forall out, sr_out r = Ok out -> so_eflag out = MAXITERATIONS ->
    (so_prox out < p_max_prox o)%Z ->
    is_finite (so_residual out) = true -> is_finite (p_alpha o) = true -> (Z.of_nat K <= 2 ^ 47)%Z ->
    let x' := sr_x r in
    finite_to (n_z P) (v_z x') /\ finite_to (n_l P) (v_l x') /\ finite_to (n_v P) (v_v x') /\ finite_to (n_v P) (v_y x') /\
    certified P K (INR K / 2 ^ 50) (/ 2 ^ 1075) (B2R (p_alpha o)) (B2R (so_residual out))
              (vv (v_z x')) (vv (v_l x')) (vv (v_v x')) (vv (v_y x')).
  Proof.
    intros out E F LP Fr Fa HK. destruct (K_bound K HK) as [G1 G2]. rewrite <- Beta_eq.
    destruct (fsolves_fcall Bops Bval LA Brounded _ _ _ _ _ _ call) as (D & DI & d & pinit & pst & stale & w & [SC AP CD _ _]).
    apply (C63_maxiter_certificate Brounded LA call out (INR K / 2 ^ 50) E F LP Fr); [|exact G1|exact G2].
    apply (solve_alpha_B _ _ _ _ _ _ _ _ _ _ _ SC Fa).
  Qed.
  (* a SUCCESS by the residual test, with a finite tolerance: the overflow of C42 is excluded *)
  Theorem C63_doubles_tolerance : forall out tol, sr_out r = Ok out -> so_eflag out = SUCCESS ->
    o_leb Bops (so_residual out) tol = true -> is_finite tol = true ->
    is_finite (so_residual out) = true /\ B2R (so_residual out) <= B2R tol.
  Proof. exact (C63_finite_tolerance Brounded LA call). Qed.
End Doubles.
