(* C64: the slack y the solver carries.  It is updated along with z, never recomputed, so with rounding it
   drifts away from b - A z.  Here: a bound on the drift by the sizes of the numbers each Newton step adds up. *)
From Verif Require Export PropsFloat.
From Verif Require Import BinOps Examples.
From Flocq Require Import IEEE754.BinarySingleNaN.
Local Open Scope R_scope.

(* sum of f over the events of a trace *)
Fixpoint total {A} (f : A -> R) (l : list A) : R := match l with [] => 0 | a :: l => f a + total f l end.

Section Sizes.
  Context {T : Type} (O : Ops T) (val : T -> R) (P : QP).
  Notation vv x := (fun i => val (vget O x i)).
  (* |y_k| + sum_j |A_kj z_j| + |t| (|b_k| + sum_j |A_kj dz_j|) for a Newton step t dx taken from x *)
  Definition step_size (k : nat) (g : ghost T) : R :=
    match g with
    | GStep x dx _ _ t _ _ _ =>
        Rabs (val (vget O (v_y x) k)) + rsum (n_z P) (fun j => Rabs (cA P k j * val (vget O (v_z x) j))) +
        Rabs (val t) * mag_v P (vv (v_z dx)) k
    | _ => 0
    end.
  (* 1 + |t| *)
  Definition step_floor (g : ghost T) : R := match g with GStep _ _ _ _ t _ _ _ => 1 + Rabs (val t) | _ => 0 end.
  (* y - (b - A z), row k *)
  Definition drift (w : var T) (k : nat) : R := val (vget O (v_y w) k) - margin P (vv (v_z w)) k.
  (* sum_j |A_kj| *)
  Definition row_sum (k : nat) : R := rsum (n_z P) (fun j => Rabs (cA P k j)).
End Sizes.

Lemma total_app {A} (f : A -> R) l1 l2 : total f (l1 ++ l2) = total f l1 + total f l2.
Proof. induction l1 as [|a l IH]; cbn; [lra|]. rewrite IH. lra. Qed.
Lemma total_nonneg {A} (f : A -> R) l : (forall a, 0 <= f a) -> 0 <= total f l.
Proof. intro H. induction l as [|a l IH]; cbn; [lra|]. specialize (H a). lra. Qed.

Section Slack.
  Context {T : Type} {O : Ops T} {fin : T -> Prop} {val : T -> R} {u eta : R}.
  Hypothesis W : Rounded O fin val u eta.
  Notation nr := (@near T val u eta).
  Notation vg := (vget O).
  Notation vv x := (fun i => val (vget O x i)).

  Lemma near_err k c m a x g : nr k c m a x -> 0 <= c -> (1 + u) ^ k <= 1 + g -> g <= 1 / 8 -> Rabs (val a - x) <= g * m + 2 * c * eta.
  Proof.
    intros [H1 H2] Hc G G'. pose proof (rd_eta _ _ _ _ _ W) as He. pose proof (pw_ge1 W k) as Pk.
    assert (M0 : 0 <= m) by (pose proof (Rabs_pos x); lra).
    assert (A1 : ((1 + u) ^ k - 1) * m <= g * m) by (apply Rmult_le_compat_r; lra).
    assert (A2 : (1 + u) ^ k * c * eta <= 2 * c * eta) by (apply Rmult_le_compat_r; [exact He|]; apply Rmult_le_compat_r; lra).
    lra.
  Qed.
  (* one entry of x + t*dx *)
  Lemma axpy_near t a b : fin (o_add O b (o_mul O t a)) -> fin b /\ fin a /\ fin t /\
    nr 2 2 (Rabs (val b) + Rabs (val t * val a)) (o_add O b (o_mul O t a)) (val b + val t * val a).
  Proof.
    intro F. destruct (rd_add _ _ _ _ _ W _ _ F) as (Fb & Fm & _). destruct (rd_mul _ _ _ _ _ W _ _ Fm) as (Ft & Fa & E).
    repeat (split; [assumption|]). pose proof (rd_u _ _ _ _ _ W) as Hu. pose proof (rd_eta _ _ _ _ _ W) as He.
    assert (N1 : nr 1 1 (Rabs (val t * val a)) (o_mul O t a) (val t * val a)).
    { split; [lra|]. rewrite pow_1. assert (0 <= u * eta) by (apply Rmult_le_pos; assumption). nra. }
    assert (N0 : nr 1 0 (Rabs (val b)) b (val b)) by (eapply (near_weaken W); [apply near_exact|lia|lra|lra]).
    pose proof (near_add W 1 0 1 _ _ _ _ _ _ (Rle_refl 0) Rle_0_1 F N0 N1) as N2.
    eapply (near_weaken W); [exact N2|lia|lra|lra].
  Qed.

  Context (LA : LinAlg T) {P : QP} {K : nat} {o : params T} {x : var T} {el : T} {r : solve_result T}
          {D : Type} {DI : DataI T D} {d : D} {pinit : T -> T -> var T -> var T -> res bool}
          {pst : T -> T -> var T -> var T -> rsd T -> var T} {stale : rsd T} {w : ws T}.
  Hypothesis FC : fcall O val LA (fin:=fin) (u:=u) (eta:=eta) P K o x el r D DI d pinit pst stale w.
  Variable g : R.
  Hypothesis G : (1 + u) ^ (4 * K) <= 1 + g.
  Hypothesis G' : g <= 1 / 8.
  Notation nz := (n_z P). Notation nl := (n_l P). Notation nv := (n_v P).
  Notation vok := (var_ok nz nl nv).
  Notation pb := (prob_of O DI d nz nl nv pinit pst o).
  Notation drift := (drift O val P). Notation row_sum := (row_sum P).
  Let AP := fc_ap _ _ _ _ _ _ _ _ _ _ _ _ _ _ _ _ FC.
  Let CD := fc_cd _ _ _ _ _ _ _ _ _ _ _ _ _ _ _ _ FC.
  Let HK := fc_K _ _ _ _ _ _ _ _ _ _ _ _ _ _ _ _ FC.

  Definition finzy (w : var T) : Prop := fins O fin nz (v_z w) /\ fins O fin nv (v_y w).
  Lemma g0' : 0 <= g.
  Proof. pose proof (pw_ge1 W (4 * K)). lra. Qed.
  Lemma pw_le k : (k <= 4 * K)%nat -> (1 + u) ^ k <= 1 + g.
  Proof. intro H. eapply Rle_trans; [apply (pw_mono W); exact H|exact G]. Qed.

  Lemma step_drift t dx y : vok y -> vok dx -> slack_near O val (fin:=fin) (u:=u) (eta:=eta) P K dx -> finzy (pb_axpy pb t dx y) ->
    finzy y /\ forall k, (k < nv)%nat ->
      Rabs (drift (pb_axpy pb t dx y) k) <= Rabs (drift y k) +
        4 * g * (Rabs (val (vg (v_y y) k)) + rsum nz (fun j => Rabs (cA P k j * val (vg (v_z y) j))) + Rabs (val t) * mag_v P (vv (v_z dx)) k) +
        eta * ((9 * INR K + 4 + 4 * row_sum k) * (1 + Rabs (val t))).
  Proof.
    intros (Y1 & Y2 & Y3 & Y4) (X1 & X2 & X3 & X4) SN (FZ & FY).
    cbn [pb_axpy prob_of] in *. unfold paxpy in *. cbn [v_z v_y] in *.
    destruct (ap_b _ _ _ _ _ _ _ _ _ _ AP (o_opp O t) (vaxpy O t (v_y dx) (v_y y))) as (r2 & Q1 & Q2 & Q3).
    { autorewrite with vlen. exact Y4. }
    unfold ab in *. rewrite Q1 in *. cbn [unres] in *.
    assert (ZN : forall j, (j < nz)%nat -> fin (vg (v_z y) j) /\
      Rabs (val (vg (vaxpy O t (v_z dx) (v_z y)) j) - (val (vg (v_z y) j) + val t * val (vg (v_z dx) j))) <=
      g * (Rabs (val (vg (v_z y) j)) + Rabs (val t) * Rabs (val (vg (v_z dx) j))) + 4 * eta).
    { intros j Hj. specialize (FZ j Hj). unfold vaxpy in FZ |- *. rewrite Y1, (vget_tab O) in FZ |- * by exact Hj.
      destruct (axpy_near _ _ _ FZ) as (F1 & F2 & F3 & N). split; [exact F1|].
      pose proof (near_err _ _ _ _ _ g N ltac:(lra) (pw_le 2 ltac:(lia)) G') as E. rewrite <- Rabs_mult. lra. }
    assert (YN : forall k, (k < nv)%nat -> fin (vg (v_y y) k) /\ fin (vg (v_y dx) k) /\
      Rabs (val (vg r2 k) - (val (vg (v_y y) k) + val t * val (vg (v_y dx) k) - val t * cb P k)) <=
      g * (Rabs (val (vg (v_y y) k)) + Rabs (val t) * Rabs (val (vg (v_y dx) k)) + Rabs (val t) * Rabs (cb P k)) + (4 * INR K + 4) * eta).
    { intros k Hk. destruct (Q3 k Hk (FY k Hk)) as (Ft & F1 & N). unfold vaxpy in F1, N. rewrite Y4, (vget_tab O) in F1, N by exact Hk.
      destruct (axpy_near _ _ _ F1) as (Fy & Fd & Ft' & N0). split; [exact Fy|]. split; [exact Fd|].
      assert (C2 : 0 <= 2) by lra. specialize (N _ _ _ _ C2 N0).
      destruct (rd_opp_fin _ _ _ _ _ W _ Ft') as (_ & Vt). rewrite Vt in N.
      assert (C3 : 0 <= 2 + 2 * INR K) by (pose proof (pos_INR K); lra).
      pose proof (near_err _ _ _ _ _ g N C3 (pw_le (2 + K) ltac:(lia)) G') as E.
      replace (val (vg (v_y y) k) + val t * val (vg (v_y dx) k) - val t * cb P k) with (val (vg (v_y y) k) + val t * val (vg (v_y dx) k) + - val t * cb P k) by ring.
      rewrite (Rabs_mult (- val t)), Rabs_Ropp, Rabs_mult in E. lra. }
    split; [split; [intros j Hj; apply ZN; exact Hj|intros k Hk; apply YN; exact Hk]|].
    intros k Hk. destruct (YN k Hk) as (Fy & Fd & E1). clear YN.
    pose proof (SN k Hk Fd) as N3.
    assert (C4 : 0 <= 4 * INR K) by (pose proof (pos_INR K); lra).
    pose proof (near_err _ _ _ _ _ g N3 C4 (pw_le (2 * K) ltac:(lia)) G') as E2.
    unfold drift. cbn [v_z v_y]. unfold margin in *.
    set (z' := vaxpy O t (v_z dx) (v_z y)) in *.
    assert (E3 : Rabs (times nz (cA P) (vv z') k - times nz (cA P) (vv (v_z y)) k - val t * times nz (cA P) (vv (v_z dx)) k) <=
       g * (rsum nz (fun j => Rabs (cA P k j * val (vg (v_z y) j))) + Rabs (val t) * rsum nz (fun j => Rabs (cA P k j * val (vg (v_z dx) j)))) + 4 * eta * row_sum k).
    { unfold times. rewrite <- rsum_scal.
      assert (EE : forall n (a b c : nat -> R), rsum n a - rsum n b - rsum n c = rsum n (fun j => a j - b j - c j))
        by (induction n as [|n IH]; intros a b c; cbn [rsum]; [ring|rewrite <- IH; ring]).
      rewrite EE. eapply Rle_trans; [apply rsum_abs|]. unfold row_sum.
      rewrite <- (rsum_scal nz (Rabs (val t))), <- rsum_add, <- (rsum_scal nz g), <- (rsum_scal nz (4 * eta)), <- rsum_add.
      apply rsum_le. intros j Hj. destruct (ZN j Hj) as (_ & Ej).
      replace (cA P k j * val (vg z' j) - cA P k j * val (vg (v_z y) j) - val t * (cA P k j * val (vg (v_z dx) j))) with
        (cA P k j * (val (vg z' j) - (val (vg (v_z y) j) + val t * val (vg (v_z dx) j)))) by ring.
      rewrite !Rabs_mult. pose proof (Rabs_pos (cA P k j)) as PA.
      apply (Rmult_le_compat_l _ _ _ PA) in Ej. lra. }
    pose proof (Rabs_pos (val t)) as Pt. pose proof g0' as Pg. pose proof (rd_eta _ _ _ _ _ W) as He. pose proof (pos_INR K) as PK.
    assert (PR : 0 <= row_sum k) by (apply rsum_nonneg; intros; apply Rabs_pos).
    set (Y := val (vg (v_y y) k)) in *. set (DY := val (vg (v_y dx) k)) in *. set (B := cb P k) in *.
    set (M := mag_v P (vv (v_z dx)) k) in *.
    set (SZ := rsum nz (fun j => Rabs (cA P k j * val (vg (v_z y) j)))) in *.
    assert (EM : M = Rabs B + rsum nz (fun j => Rabs (cA P k j * val (vg (v_z dx) j)))) by reflexivity.
    set (SD := rsum nz (fun j => Rabs (cA P k j * val (vg (v_z dx) j)))) in *.
    assert (PSD : 0 <= SD) by (apply rsum_nonneg; intros; apply Rabs_pos).
    assert (PSZ : 0 <= SZ) by (apply rsum_nonneg; intros; apply Rabs_pos).
    pose proof (Rabs_pos B) as PB. pose proof (Rabs_pos Y) as PY.
    set (TZ := times nz (cA P) (vv (v_z dx)) k) in *. set (TY := times nz (cA P) (vv (v_z y)) k) in *.
    set (TN := times nz (cA P) (vv z') k) in *.
    assert (DYb : Rabs DY <= 9 / 8 * M + 8 * INR K * eta).
    { destruct N3 as [N3 _]. pose proof (Rabs_triang (DY - (B - TZ)) (B - TZ)) as Tr.
      replace (DY - (B - TZ) + (B - TZ)) with DY in Tr by ring. assert (g * M <= 1 / 8 * M) by (apply Rmult_le_compat_r; lra). lra. }
    replace (val (vg r2 k) - (B - TN)) with
      ((Y - (B - TY)) + (val (vg r2 k) - (Y + val t * DY - val t * B)) + val t * (DY - (B - TZ)) + (TN - TY - val t * TZ)) by ring.
    eapply Rle_trans; [apply Rabs_triang|]. eapply Rle_trans; [apply Rplus_le_compat_r; apply Rabs_triang|].
    eapply Rle_trans; [apply Rplus_le_compat_r; apply Rplus_le_compat_r; apply Rabs_triang|].
    rewrite (Rabs_mult (val t)).
    assert (E2' : Rabs (val t) * Rabs (DY - (B - TZ)) <= Rabs (val t) * (g * M + 2 * (4 * INR K) * eta)) by (apply Rmult_le_compat_l; assumption).
    set (tt := Rabs (val t)) in *.
    assert (D1 : tt * Rabs DY <= tt * (9 / 8 * M + 8 * INR K * eta)) by (apply Rmult_le_compat_l; assumption).
    assert (D2 : g * (tt * Rabs DY) <= g * (tt * (9 / 8 * M + 8 * INR K * eta))) by (apply Rmult_le_compat_l; assumption).
    assert (PM : 0 <= M) by lra.
    assert (Q4 : 0 <= g * (tt * M)) by (apply Rmult_le_pos; [assumption|apply Rmult_le_pos; assumption]).
    assert (Q5 : g * (tt * Rabs B) + g * (tt * SD) = g * (tt * M)) by (rewrite EM; ring).
    assert (Q6 : 0 <= g * Rabs Y) by (apply Rmult_le_pos; assumption).
    assert (Q7 : 0 <= g * SZ) by (apply Rmult_le_pos; assumption).
    assert (Q8 : 0 <= INR K * eta) by (apply Rmult_le_pos; assumption).
    assert (Q9 : 0 <= tt * (INR K * eta)) by (apply Rmult_le_pos; assumption).
    assert (Q10 : g * (tt * (INR K * eta)) <= 1 / 8 * (tt * (INR K * eta))) by (apply Rmult_le_compat_r; assumption).
    assert (Q11 : 0 <= eta * row_sum k) by (apply Rmult_le_pos; assumption).
    assert (Q12 : 0 <= tt * (eta * row_sum k)) by (apply Rmult_le_pos; assumption).
    assert (Q13 : 0 <= tt * eta) by (apply Rmult_le_pos; assumption).
    lra.
  Qed.

  Lemma newton_slack y yb dx : vok dx ->
    pb_newton pb y yb (rsd_neg O (pb_inner pb y yb)) = Ok dx -> slack_near O val (fin:=fin) (u:=u) (eta:=eta) P K dx.
  Proof.
    intros V E. revert E. unfold pb_newton, prob_of, pnewton.
    destruct (pinit _ _ y yb) as [[|]|e|uu]; try discriminate. intros [= <-].
    apply (fc_y _ _ _ _ _ _ _ _ _ _ _ _ _ _ _ _ FC). exact V.
  Qed.

  Lemma start_drift : length (v_z x) = nz -> finzy (pstart pb x) -> forall k, (k < nv)%nat ->
    Rabs (drift (pstart pb x) k) <= g * mag_v P (vv (v_z x)) k + 8 * INR K * eta.
  Proof.
    intros Lz (_ & FY) k Hk. specialize (FY k Hk). unfold pstart in *. unfold drift. cbn [v_z v_y pb_margin prob_of] in *.
    unfold pmargin, gA, ab in *.
    destruct (ap_b _ _ _ _ _ _ _ _ _ _ AP (o_one O) (vconst nv (o_zero O)) (vconst_len _ _)) as (q1 & Q1 & L1 & A1).
    rewrite Q1 in *. cbn [unres] in *.
    destruct (ap_A _ _ _ _ _ _ _ _ _ _ AP (v_z x) q1 Lz L1) as (q2 & Q2 & L2 & A2). rewrite Q2 in *. cbn [unres] in *.
    destruct (A2 k Hk FY) as (F1 & N2). destruct (A1 k Hk F1) as (_ & F0 & N1).
    unfold vconst in N1; rewrite (vget_tab O) in N1 by exact Hk.
    specialize (N1 0%nat 0 0 0 (Rle_refl 0) (nr0 O val W)).
    assert (CK : 0 <= 0 + 2 * INR K) by (pose proof (pos_INR K); lra).
    specialize (N2 _ _ _ _ CK N1). destruct (rd_one _ _ _ _ _ W) as (_ & V1). rewrite V1 in N2.
    assert (CK2 : 0 <= 0 + 2 * INR K + 2 * INR K) by (pose proof (pos_INR K); lra).
    pose proof (near_err _ _ _ _ _ g N2 CK2 (pw_le (0 + K + K) ltac:(lia)) G') as E.
    unfold margin, mag_v. rewrite Rmult_1_l in E.
    replace (val (vg q2 k) - (cb P k - times nz (cA P) (vv (v_z x)) k)) with (val (vg q2 k) - (0 + cb P k - times nz (cA P) (vv (v_z x)) k)) by ring.
    rewrite !Rplus_0_l in E. rewrite Rplus_0_l. lra.
  Qed.

  Notation size k := (total (step_size O val P k)).
  Notation floors := (total (step_floor val)).
  Lemma trace_drift itol0 ones tr : forall c, trace_ok O o pb vok itol0 ones c tr ->
    let c' := fold_left upd tr c in finzy (c_x c') -> finzy (c_x c) /\ forall k, (k < nv)%nat ->
      Rabs (drift (c_x c') k) <= Rabs (drift (c_x c) k) + 4 * g * size k tr + eta * ((9 * INR K + 4 + 4 * row_sum k) * floors tr).
  Proof.
    induction tr as [|e tr IH]; intros c TR; cbn [fold_left total].
    - intro F. split; [exact F|]. intros k Hk. lra.
    - intro F. assert (TR' : trace_ok O o pb vok itol0 ones (upd c e) tr) by (intros pre gg post E; apply (TR (e :: pre) gg post); rewrite E; reflexivity).
      destruct (IH (upd c e) TR' F) as (F1 & B1). clear IH. cbv zeta in B1.
      pose proof (TR [] e tr eq_refl) as EV. cbn [fold_left] in EV.
      assert (ST : finzy (c_x c) /\ forall k, (k < nv)%nat -> Rabs (drift (c_x (upd c e)) k) <= Rabs (drift (c_x c) k) +
        4 * g * step_size O val P k e + eta * ((9 * INR K + 4 + 4 * row_sum k) * step_floor val e)).
      { destruct e as [prev tol Ek xb|y Ei Eo|y yb|y m|y dx cm m0 t j acc y'|y|dx]; cbn [upd c_x step_size step_floor] in *.
        1: { cbn in EV. destruct EV as (_ & -> & _). split; [exact F1|]. intros; lra. }
        1,2,3,6: split; [exact F1|]; intros; lra.
        - cbn [ev_ok] in EV. destruct EV as (-> & V1 & _ & V2 & _ & ms & m' & SO). destruct SO as (SO & _ & _ & _ & _ & _ & _ & _ & -> & _).
          apply (step_drift t dx (c_x c) V1 V2 (newton_slack _ _ _ V2 SO) F1).
        - cbn in EV. destruct EV as (-> & _). unfold proj_duals in F1. split; [exact F1|]. intros k Hk. unfold drift, proj_duals. cbn [v_z v_y]. lra. }
      destruct ST as (F0 & B0). split; [exact F0|]. intros k Hk. specialize (B0 k Hk). specialize (B1 k Hk). lra.
  Qed.
  (* the centre of the current subproblem is an earlier point *)
  Lemma center_earlier tr : forall c : ctx T, c_center (fold_left upd tr c) = c_center c \/
    exists pre prev tol Ek xb post, tr = pre ++ GSub prev tol Ek xb :: post /\ c_center (fold_left upd tr c) = xb.
  Proof.
    induction tr as [|e tr IH]; intro c; [left; reflexivity|]. cbn [fold_left].
    destruct (IH (upd c e)) as [E|(pre & prev & tol & Ek & xb & post & -> & E)].
    - rewrite E. destruct e; try (left; reflexivity). right. exists [], prev, tol, Ek, xbar, tr. split; reflexivity.
    - right. exists (e :: pre), prev, tol, Ek, xb, post. split; [reflexivity|exact E].
  Qed.
End Slack.

Section Calls.
  Context {T : Type} {O : Ops T} {fin : T -> Prop} {val : T -> R} {u eta : R}.
  Hypothesis W : Rounded O fin val u eta.
  Context (LA : LinAlg T) {P : QP} {K : nat} {o : params T} {x : var T} {el : T} {r : solve_result T}.
  Hypothesis call : fsolves O val LA P K o x el r.
  Notation vv x := (fun i => val (vget O x i)).

  (* how far the returned y can be from b - A z of the returned z: the rounding unit g times the sizes of
     the numbers added up at the start and in each Newton step *)
  Definition drift_bound (g : R) (k : nat) : R :=
    g * (mag_v P (vv (v_z x)) k + 4 * total (step_size O val P k) (sr_trace r)) +
    eta * (8 * INR K + (9 * INR K + 4 + 4 * row_sum P k) * total (step_floor val) (sr_trace r)).

  Lemma step_size_nonneg k (a : ghost T) : 0 <= step_size O val P k a.
  Proof.
    destruct a; cbn [step_size]; try lra.
    assert (0 <= mag_v P (vv (v_z dx)) k) by (unfold mag_v; pose proof (Rabs_pos (cb P k)); assert (0 <= rsum (n_z P) (fun j => Rabs (cA P k j * val (vget O (v_z dx) j)))) by (apply rsum_nonneg; intros; apply Rabs_pos); lra).
    assert (0 <= rsum (n_z P) (fun j => Rabs (cA P k j * val (vget O (v_z x0) j)))) by (apply rsum_nonneg; intros; apply Rabs_pos).
    pose proof (Rabs_pos (val (vget O (v_y x0) k))). pose proof (Rabs_pos (val t)).
    assert (0 <= Rabs (val t) * mag_v P (vv (v_z dx)) k) by (apply Rmult_le_pos; assumption). lra.
  Qed.
  Lemma step_floor_nonneg (a : ghost T) : 0 <= step_floor val a.
  Proof. destruct a; cbn [step_floor]; try lra. pose proof (Rabs_pos (val t)). lra. Qed.

  Theorem C64_slack_drift : forall out g, sr_out r = Ok out -> infeas (so_eflag out) = false ->
    fins O fin (n_z P) (v_z (sr_x r)) -> fins O fin (n_v P) (v_y (sr_x r)) ->
    (1 + u) ^ (4 * K) <= 1 + g -> g <= 1 / 8 ->
    forall k, (k < n_v P)%nat -> Rabs (val (vget O (v_y (sr_x r)) k) - margin P (vv (v_z (sr_x r))) k) <= drift_bound g k.
  Proof.
    intros out g E NI FZ FY G G'.
    destruct (fsolves_fcall O val LA W _ _ _ _ _ _ call) as (D & DI & d & pinit & pst & stale & w & FC).
    pose proof FC as FC0. destruct FC0 as [SC AP CD HK HY].
    pose proof (call_exit O _ _ _ _ _ _ _ _ _ _ _ _ _ CD) as EX. rewrite E in EX. destruct EX as (_ & EX).
    pose proof (call_events O _ _ _ _ _ _ _ _ _ _ _ _ _ CD) as EV.
    set (pb := prob_of O DI d (n_z P) (n_l P) (n_v P) pinit pst o) in *.
    assert (Lz : length (v_z x) = n_z P) by apply (cd_guess _ _ _ _ _ _ _ _ _ _ _ _ _ _ CD).
    pose proof (rd_eta _ _ _ _ _ W) as He. pose proof (pw_ge1 W (4 * K)) as Pg.
    (* a point reached after a prefix of the trace *)
    assert (KEY : forall pre post, sr_trace r = pre ++ post -> finzy (fin:=fin) (c_x (after (pstart pb x) pre)) (O:=O) (P:=P) ->
      forall k, (k < n_v P)%nat -> Rabs (drift O val P (c_x (after (pstart pb x) pre)) k) <= drift_bound g k).
    { intros pre post ET F k Hk.
      assert (TR : trace_ok O o pb (var_ok (n_z P) (n_l P) (n_v P)) _ _ (start_ctx (pstart pb x)) pre)
        by (intros p1 gg p2 Ep; apply (EV p1 gg (p2 ++ post)); rewrite ET, Ep, <- app_assoc; reflexivity).
      destruct (trace_drift W LA FC g G G' _ _ pre _ TR F) as (F0 & B). specialize (B k Hk).
      cbn [start_ctx c_x] in F0, B.
      pose proof (start_drift W LA FC g G G' Lz F0 k Hk) as B0.
      unfold after in *. eapply Rle_trans; [exact B|]. unfold drift_bound. rewrite ET, !total_app.
      pose proof (total_nonneg (step_size O val P k) post (step_size_nonneg k)) as T1.
      pose proof (total_nonneg (step_floor val) post step_floor_nonneg) as T2.
      assert (PR : 0 <= row_sum P k) by (apply rsum_nonneg; intros; apply Rabs_pos). pose proof (pos_INR K) as PK.
      assert (T3 : 0 <= g * total (step_size O val P k) post) by (apply Rmult_le_pos; lra).
      assert (T4 : 0 <= (9 * INR K + 4 + 4 * row_sum P k) * total (step_floor val) post) by (apply Rmult_le_pos; lra).
      assert (T5 : 0 <= eta * ((9 * INR K + 4 + 4 * row_sum P k) * total (step_floor val) post)) by (apply Rmult_le_pos; lra).
      cbv zeta in B0, B |- *.
      set (s1 := total (step_size O val P k) pre) in *. set (s2 := total (step_size O val P k) post) in *.
      set (f1 := total (step_floor val) pre) in *. set (f2 := total (step_floor val) post) in *.
      set (a := Rabs (drift O val P (pstart pb x) k)) in *. set (m := mag_v P _ k) in *. set (q := INR K) in *. set (p := row_sum P k) in *.
      change (a <= g * m + 8 * q * eta) in B0. clearbody a. clear - B0 T1 T2 T3 T4 T5 PR PK He Pg. lra. }
    assert (ALL : sr_trace r = sr_trace r ++ []) by (rewrite app_nil_r; reflexivity).
    assert (CUR : sr_x r = c_x (after (pstart pb x) (sr_trace r)) -> forall k, (k < n_v P)%nat ->
      Rabs (val (vget O (v_y (sr_x r)) k) - margin P (vv (v_z (sr_x r))) k) <= drift_bound g k).
    { intros EC k Hk. pose proof (KEY _ _ ALL) as H. rewrite <- EC in H. apply (H (conj FZ FY) k Hk). }
    destruct EX as (_ & _ & _ & [(_ & EC & _)|[(_ & _ & _ & _ & _ & _ & xs & _ & _ & EC)|[(_ & _ & EC & _)|(EI & _)]]]).
    - apply CUR. exact EC.
    - destruct (o_ltb O _ _) in EC; [apply CUR; exact EC|].
      destruct (center_earlier (sr_trace r) (start_ctx (pstart pb x))) as [E0|(pre & prev & tol & Ek & xb & post & ET & E0)].
      + intros k Hk. pose proof (KEY [] _ eq_refl) as H. cbn in H. unfold after in EC. rewrite E0 in EC. cbn in EC.
        rewrite <- EC in H. apply (H (conj FZ FY) k Hk).
      + intros k Hk. pose proof (EV _ _ _ ET) as (_ & EB & _). unfold after in EC at 1. rewrite E0, EB in EC.
        pose proof (KEY _ _ ET) as H. rewrite <- EC in H. apply (H (conj FZ FY) k Hk).
    - apply CUR. exact EC.
    - rewrite EI in NI. discriminate.
  Qed.

  (* SUCCESS: how far the returned z can violate A z <= b *)
  Theorem C64_violation : forall out g, sr_out r = Ok out -> so_eflag out = SUCCESS ->
    fin (so_residual out) -> 0 < val (p_alpha o) <= 1 -> (1 + u) ^ (4 * K) <= 1 + g -> g <= 1 / 8 ->
    forall k, (k < n_v P)%nat ->
      times (n_z P) (cA P) (vv (v_z (sr_x r))) k - cb P k <=
      (1 + 6 * g) * ((1 + 10 * g) * (val (so_residual out) + 8 * sqrt (INR (n_z P + n_l P + n_v P + 1) * eta)) + 2 * eta) / val (p_alpha o)
      + drift_bound g k.
  Proof.
    intros out g E F Fr Ha G G' k Hk.
    destruct (C63_success_certificate W LA call out g E F Fr Ha G G') as (F1 & _ & _ & F4 & CE).
    assert (NI : infeas (so_eflag out) = false) by (rewrite F; reflexivity).
    pose proof (C64_slack_drift out g E NI F1 F4 G G' k Hk) as DB.
    pose proof (ce_complementary _ _ _ _ _ _ _ _ _ _ CE k Hk) as CC. cbv beta in CC.
    set (B := (1 + 6 * g) * _) in *. set (al := val (p_alpha o)) in *. set (y := val (vget O (v_y (sr_x r)) k)) in *.
    set (v := val (vget O (v_v (sr_x r)) k)) in *.
    assert (M1 : - y <= Rabs (Rmin y v)).
    { pose proof (Rmin_l y v). pose proof (Rle_abs (- Rmin y v)) as A. rewrite Rabs_Ropp in A. lra. }
    assert (M2 : Rabs (Rmin y v) <= B / al).
    { apply Rmult_le_reg_l with al; [lra|]. replace (al * (B / al)) with B by (field; lra). exact CC. }
    unfold margin in DB. pose proof (Rle_abs (y - (cb P k - times (n_z P) (cA P) (vv (v_z (sr_x r))) k))) as A. lra.
  Qed.

  (* the same in numbers: every Newton step from a point and along a direction of size at most M, t <= 1 *)
  Definition is_step (a : ghost T) : bool := match a with GStep _ _ _ _ _ _ _ _ => true | _ => false end.
  Definition steps : nat := count is_step (sr_trace r).
  Lemma total_count (f : ghost T -> R) c l : (forall a, is_step a = false -> f a = 0) -> (forall a, In a l -> is_step a = true -> f a <= c) ->
    total f l <= c * INR (count is_step l).
  Proof.
    intro H0. induction l as [|a l IH]; intro H; [cbn; lra|]. cbn [total]. rewrite count_cons, plus_INR.
    specialize (IH (fun b Hb => H b (or_intror Hb))). destruct (is_step a) eqn:E.
    - specialize (H a (or_introl eq_refl) E). cbn [INR]. lra.
    - rewrite (H0 a E). cbn [INR]. lra.
  Qed.
  Corollary drift_bound_steps g k M : 0 <= g -> 0 <= M ->
    (forall a, In a (sr_trace r) -> step_size O val P k a <= M /\ step_floor val a <= 2) ->
    drift_bound g k <= g * (mag_v P (vv (v_z x)) k + 4 * M * INR steps) + eta * (8 * INR K + (9 * INR K + 4 + 4 * row_sum P k) * (2 * INR steps)).
  Proof.
    intros Hg HM H. unfold drift_bound, steps. pose proof (rd_eta _ _ _ _ _ W) as He.
    assert (T1 : total (step_size O val P k) (sr_trace r) <= M * INR (count is_step (sr_trace r))).
    { apply total_count; [intros []; cbn; congruence|]. intros a Ha _. apply H. exact Ha. }
    assert (T2 : total (step_floor val) (sr_trace r) <= 2 * INR (count is_step (sr_trace r))).
    { apply total_count; [intros []; cbn; congruence|]. intros a Ha _. apply H. exact Ha. }
    assert (PR : 0 <= row_sum P k) by (apply rsum_nonneg; intros; apply Rabs_pos). pose proof (pos_INR K) as PK.
    apply (Rmult_le_compat_l g) in T1; [|exact Hg].
    apply (Rmult_le_compat_l (9 * INR K + 4 + 4 * row_sum P k)) in T2; [|lra].
    apply (Rmult_le_compat_l eta) in T2; [|exact He]. lra.
  Qed.
End Calls.

(* ------------------------------------------------------------------ IEEE binary64 *)
Section Doubles.
  Context (LA : LinAlg B64) {P : QP} {K : nat} {o : params B64} {x : var B64} {el : B64} {r : solve_result B64}.
  Hypothesis call : fsolves Bops Bval LA P K o x el r.
  Notation vv x := (fun i => B2R (vget Bops x i)).
  Notation finite_to n x := (forall i, (i < n)%nat -> is_finite (vget Bops x i) = true).

  (* drift_bound with g = K 2^-50 and underflow threshold 2^-1075 *)
  Definition doubles_drift (k : nat) : R :=
    INR K / 2 ^ 50 * (mag_v P (vv (v_z x)) k + 4 * total (step_size Bops B2R P k) (sr_trace r)) +
    / 2 ^ 1075 * (8 * INR K + (9 * INR K + 4 + 4 * row_sum P k) * total (step_floor B2R) (sr_trace r)).

  Theorem C64_doubles_drift : forall out, sr_out r = Ok out -> so_eflag out = SUCCESS \/ so_eflag out = MAXITERATIONS ->
    finite_to (n_z P) (v_z (sr_x r)) -> finite_to (n_v P) (v_y (sr_x r)) -> (Z.of_nat K <= 2 ^ 47)%Z ->
    forall k, (k < n_v P)%nat ->
      Rabs (B2R (vget Bops (v_y (sr_x r)) k) - (cb P k - times (n_z P) (cA P) (vv (v_z (sr_x r))) k)) <= doubles_drift k.
  Proof.
    intros out E F FZ FY HK k Hk. destruct (K_bound K HK) as [G1 G2].
    assert (NI : infeas (so_eflag out) = false) by (destruct F as [-> | ->]; reflexivity).
    pose proof (C64_slack_drift Brounded LA call out _ E NI FZ FY G1 G2 k Hk) as H.
    unfold drift_bound in H. rewrite Beta_eq in H. exact H.
  Qed.

  Theorem C64_doubles_violation : forall out, sr_out r = Ok out -> so_eflag out = SUCCESS ->
    is_finite (so_residual out) = true -> is_finite (p_alpha o) = true -> (Z.of_nat K <= 2 ^ 47)%Z ->
    forall k, (k < n_v P)%nat ->
      let g := INR K / 2 ^ 50 in let e := / 2 ^ 1075 in
      times (n_z P) (cA P) (vv (v_z (sr_x r))) k - cb P k <=
      (1 + 6 * g) * ((1 + 10 * g) * (B2R (so_residual out) + 8 * sqrt (INR (n_z P + n_l P + n_v P + 1) * e)) + 2 * e) / B2R (p_alpha o)
      + doubles_drift k.
  Proof.
    intros out E F Fr Fa HK k Hk. cbv zeta. destruct (K_bound K HK) as [G1 G2].
    destruct (fsolves_fcall Bops Bval LA Brounded _ _ _ _ _ _ call) as (D & DI & d & pinit & pst & stale & w & [SC AP CD _ _]).
    pose proof (C64_violation Brounded LA call out _ E F Fr (solve_alpha_B _ _ _ _ _ _ _ _ _ _ _ SC Fa) G1 G2 k Hk) as H.
    unfold drift_bound in H. rewrite Beta_eq in H. exact H.
  Qed.
End Doubles.
