(* C68: how far the answer of a SUCCESS on doubles (or of a run stopped by the Newton limit) is from optimal: the objective, and the distance to
   a true solution, bounded by numbers that can be computed from the answer. *)
From Verif Require Export PropsSlack.
From Verif Require Import PropsKKT BinOps.
From Flocq Require Import Core.Core IEEE754.BinarySingleNaN.
Local Open Scope R_scope.

(* ---------- the mathematics, for any approximate KKT point ---------- *)
Section Gap.
  Context (P : QP).
  Notation nz := (n_z P). Notation nl := (n_l P). Notation nv := (n_v P).

  (* z, l, v, y satisfy the optimality conditions up to the errors S (stationarity), E (equations), c
     (complementarity of y and v) and D (difference of y and b - A z) *)
  Record almost (S E : nat -> R) (c : R) (D : nat -> R) (z l v y : nat -> R) : Prop := {
    al_z : forall i, (i < nz)%nat -> Rabs (cf P i + times nz (cH P) z i + ttimes nl (cG P) l i + ttimes nv (cA P) v i) <= S i;
    al_l : forall k, (k < nl)%nat -> Rabs (ch P k - times nz (cG P) z k) <= E k;
    al_c : forall k, (k < nv)%nat -> Rabs (Rmin (y k) (v k)) <= c;
    al_y : forall k, (k < nv)%nat -> Rabs (y k - (cb P k - times nz (cA P) z k)) <= D k }.

  (* error in f of a point w compared with, row by row *)
  Definition gap_bound (S E : nat -> R) (c : R) (D : nat -> R) (z l v y w : nat -> R) : R :=
    rsum nz (fun i => S i * Rabs (w i - z i)) + rsum nl (fun k => E k * Rabs (l k)) +
    rsum nv (fun k => c * (cb P k - times nz (cA P) w k) + c * Rmax (Rabs (y k)) (Rabs (v k)) + Rabs (v k) * D k).

  Lemma min_max_prod a b : a * b = Rmin a b * Rmax a b.
  Proof. unfold Rmin, Rmax. destruct (Rle_dec a b); ring. Qed.
  Lemma dot_bound n (a b s : nat -> R) : (forall i, (i < n)%nat -> Rabs (a i) <= s i) ->
    Rabs (rsum n (fun i => a i * b i)) <= rsum n (fun i => s i * Rabs (b i)).
  Proof.
    intro H. induction n as [|n IH]; cbn [rsum]; [rewrite Rabs_R0; lra|].
    eapply Rle_trans; [apply Rabs_triang|]. rewrite Rabs_mult.
    assert (IH' := IH (fun i Hi => H i (Nat.lt_lt_succ_r _ _ Hi))). pose proof (H n (Nat.lt_succ_diag_r n)).
    pose proof (Rabs_pos (b n)). nra.
  Qed.

  Lemma row_gap S E c D z l v y w : almost S E c D z l v y -> forall k, (k < nv)%nat -> 0 <= cb P k - times nz (cA P) w k ->
    v k * (times nz (cA P) w k - times nz (cA P) z k) <=
    c * (cb P k - times nz (cA P) w k) + c * Rmax (Rabs (y k)) (Rabs (v k)) + Rabs (v k) * D k.
  Proof.
    intros A k Hk Hw. pose proof (al_c _ _ _ _ _ _ _ _ A k Hk) as C. pose proof (al_y _ _ _ _ _ _ _ _ A k Hk) as Y.
    set (mw := cb P k - times nz (cA P) w k) in *. set (mz := cb P k - times nz (cA P) z k) in *.
    replace (times nz (cA P) w k - times nz (cA P) z k) with (mz - mw) by (unfold mz, mw; ring).
    assert (V : - c <= v k).
    { pose proof (Rmin_r (y k) (v k)). pose proof (Rle_abs (- Rmin (y k) (v k))) as Q. rewrite Rabs_Ropp in Q. lra. }
    assert (VY : v k * y k <= c * Rmax (Rabs (y k)) (Rabs (v k))).
    { rewrite Rmult_comm, min_max_prod. eapply Rle_trans; [apply Rle_abs|]. rewrite Rabs_mult.
      apply Rmult_le_compat; [apply Rabs_pos|apply Rabs_pos|exact C|].
      unfold Rmax at 1. destruct (Rle_dec (y k) (v k)); [apply Rmax_r|apply Rmax_l]. }
    assert (VD : v k * (mz - y k) <= Rabs (v k) * D k).
    { eapply Rle_trans; [apply Rle_abs|]. rewrite Rabs_mult. apply Rmult_le_compat_l; [apply Rabs_pos|].
      rewrite Rabs_minus_sym. exact Y. }
    assert (- v k * mw <= c * mw) by nra. nra.
  Qed.

  Theorem objective_bound : forall S E c D z l v y w, convex P -> almost S E c D z l v y -> feasible P w ->
    objective P z <= objective P w + gap_bound S E c D z l v y w.
  Proof.
    intros S E c D z l v y w CV A [W1 W2]. unfold gap_bound.
    assert (Eg := objective_gap P z w CV). rewrite (gap_lagr P z l v) in Eg.
    assert (K1 := dot_bound nz (lagr P z l v) (fun i => w i - z i) S).
    assert (HS : forall i, (i < nz)%nat -> Rabs (lagr P z l v i) <= S i).
    { intros i Hi. pose proof (al_z _ _ _ _ _ _ _ _ A i Hi) as H. unfold lagr.
      match goal with |- Rabs ?a <= _ => match type of H with Rabs ?b <= _ => replace a with b by ring end end. exact H. }
    specialize (K1 HS). pose proof (Rle_abs (- rsum nz (fun i => lagr P z l v i * (w i - z i)))) as K1'. rewrite Rabs_Ropp in K1'.
    assert (K2 := dot_bound nl (fun k => ch P k - times nz (cG P) z k) l E (al_l _ _ _ _ _ _ _ _ A)).
    pose proof (Rle_abs (rsum nl (fun k => (ch P k - times nz (cG P) z k) * l k))) as K2'.
    assert (K2'' : rsum nl (fun k => l k * (times nz (cG P) w k - times nz (cG P) z k)) =
                   rsum nl (fun k => (ch P k - times nz (cG P) z k) * l k)).
    { apply rsum_ext. intros k Hk. rewrite (W1 k Hk). ring. }
    assert (K3 : rsum nv (fun k => v k * (times nz (cA P) w k - times nz (cA P) z k)) <=
      rsum nv (fun k => c * (cb P k - times nz (cA P) w k) + c * Rmax (Rabs (y k)) (Rabs (v k)) + Rabs (v k) * D k)).
    { apply rsum_le. intros k Hk. apply (row_gap S E c D z l v y w A k Hk). specialize (W2 k Hk). lra. }
    destruct CV as [_ CV]. specialize (CV (fun i => w i - z i)). lra.
  Qed.

  (* distance, in the norm of H, to a point w that solves the problem with multipliers ls, vs *)
  Definition distance_bound (S E : nat -> R) (c : R) (D : nat -> R) (z l v y w ls vs : nat -> R) : R :=
    rsum nz (fun i => S i * Rabs (w i - z i)) + rsum nl (fun k => E k * Rabs (l k - ls k)) +
    rsum nv (fun k => c * (cb P k - times nz (cA P) w k) + c * Rmax (Rabs (y k)) (Rabs (v k)) + Rabs (v k) * D k +
                      vs k * (c + D k)).

  Lemma quad_flip z w : quad P (fun i => z i - w i) = quad P (fun i => w i - z i).
  Proof. unfold quad. apply rsum_ext; intros; apply rsum_ext; intros; ring. Qed.

  Theorem distance_bound_ok : forall S E c D z l v y w ls vs, convex P -> almost S E c D z l v y -> KKT P w ls vs ->
    quad P (fun i => z i - w i) <= distance_bound S E c D z l v y w ls vs.
  Proof.
    intros S E c D z l v y w ls vs CV A (Ks & [W1 W2] & Kc). unfold distance_bound.
    assert (E1 := objective_gap P z w CV). rewrite (gap_lagr P z l v) in E1.
    assert (E2 := objective_gap P w z CV). rewrite (gap_lagr P w ls vs) in E2.
    assert (Z0 : rsum nz (fun i => lagr P w ls vs i * (z i - w i)) = 0).
    { rewrite (rsum_ext nz _ (fun _ => 0)); [rewrite rsum_const; ring|]. intros i Hi. rewrite (Ks i Hi). ring. }
    rewrite Z0 in E2. rewrite <- (quad_flip z w) in E1.
    assert (HS : forall i, (i < nz)%nat -> Rabs (lagr P z l v i) <= S i).
    { intros i Hi. pose proof (al_z _ _ _ _ _ _ _ _ A i Hi) as H. unfold lagr.
      match goal with |- Rabs ?a <= _ => match type of H with Rabs ?b <= _ => replace a with b by ring end end. exact H. }
    assert (K1 := dot_bound nz (lagr P z l v) (fun i => w i - z i) S HS).
    pose proof (Rle_abs (- rsum nz (fun i => lagr P z l v i * (w i - z i)))) as K1'. rewrite Rabs_Ropp in K1'.
    assert (K2 := dot_bound nl (fun k => ch P k - times nz (cG P) z k) (fun k => l k - ls k) E (al_l _ _ _ _ _ _ _ _ A)).
    pose proof (Rle_abs (rsum nl (fun k => (ch P k - times nz (cG P) z k) * (l k - ls k)))) as K2'.
    assert (K2'' : rsum nl (fun k => l k * (times nz (cG P) w k - times nz (cG P) z k)) +
                   rsum nl (fun k => ls k * (times nz (cG P) z k - times nz (cG P) w k)) =
                   rsum nl (fun k => (ch P k - times nz (cG P) z k) * (l k - ls k))).
    { rewrite <- rsum_add. apply rsum_ext. intros k Hk. rewrite (W1 k Hk). ring. }
    assert (K3 : rsum nv (fun k => v k * (times nz (cA P) w k - times nz (cA P) z k)) +
                 rsum nv (fun k => vs k * (times nz (cA P) z k - times nz (cA P) w k)) <=
      rsum nv (fun k => c * (cb P k - times nz (cA P) w k) + c * Rmax (Rabs (y k)) (Rabs (v k)) + Rabs (v k) * D k + vs k * (c + D k))).
    { rewrite <- rsum_add. apply rsum_le. intros k Hk. specialize (W2 k Hk). destruct (Kc k Hk) as [V0 V1].
      pose proof (row_gap S E c D z l v y w A k Hk ltac:(lra)) as G.
      enough (vs k * (times nz (cA P) z k - times nz (cA P) w k) <= vs k * (c + D k)) by lra.
      unfold margin in V1.
      replace (vs k * (times nz (cA P) z k - times nz (cA P) w k)) with
        (vs k * - (cb P k - times nz (cA P) z k) + vs k * (cb P k - times nz (cA P) w k)) by ring.
      rewrite V1, Rplus_0_r. apply Rmult_le_compat_l; [exact V0|].
      pose proof (al_c _ _ _ _ _ _ _ _ A k Hk) as C. pose proof (al_y _ _ _ _ _ _ _ _ A k Hk) as Y.
      pose proof (Rle_abs (y k - (cb P k - times nz (cA P) z k))).
      pose proof (Rmin_l (y k) (v k)). pose proof (Rle_abs (- Rmin (y k) (v k))) as Q. rewrite Rabs_Ropp in Q. lra. }
    lra.
  Qed.
End Gap.

(* ---------- the errors of a SUCCESS ---------- *)
Section Errors.
  Context (P : QP) (K : nat) (g e alpha residual : R).
  Definition base_err : R := (1 + 10 * g) * (residual + 8 * sqrt (INR (n_z P + n_l P + n_v P + 1) * e)).
  Definition err_z (z l v : nat -> R) (i : nat) : R := base_err + g * mag_z P z l v i + 16 * INR K * e.
  Definition err_l (z : nat -> R) (k : nat) : R := base_err + g * mag_l P z k + 8 * INR K * e.
  Definition err_c : R := (1 + 6 * g) * (base_err + 2 * e) / alpha.

  Lemma certified_almost z l v y D : 0 < alpha -> certified P K g e alpha residual z l v y ->
    (forall k, (k < n_v P)%nat -> Rabs (y k - margin P z k) <= D k) ->
    almost P (err_z z l v) (err_l z) err_c D z l v y.
  Proof.
    intros Ha C HD. constructor.
    - exact (ce_stationary _ _ _ _ _ _ _ _ _ _ C).
    - exact (ce_equality _ _ _ _ _ _ _ _ _ _ C).
    - intros k Hk. pose proof (ce_complementary _ _ _ _ _ _ _ _ _ _ C k Hk) as H. unfold err_c.
      apply Rmult_le_reg_l with alpha; [exact Ha|].
      replace (alpha * ((1 + 6 * g) * (base_err + 2 * e) / alpha)) with ((1 + 6 * g) * (base_err + 2 * e)) by (field; lra). exact H.
    - exact HD.
  Qed.
End Errors.

(* the exits whose reported residual is that of the returned point: SUCCESS, and the limit on Newton steps (C08, C10) *)
Definition known_residual {T} (o : params T) (out : solver_out T) : Prop :=
  so_eflag out = SUCCESS \/ (so_eflag out = MAXITERATIONS /\ (so_prox out < p_max_prox o)%Z).

Section Calls.
  Context {T : Type} {O : Ops T} {fin : T -> Prop} {val : T -> R} {u eta : R}.
  Hypothesis W : Rounded O fin val u eta.
  Context (LA : LinAlg T) {P : QP} {K : nat} {o : params T} {x : var T} {el : T} {r : solve_result T}.
  Hypothesis call : fsolves O val LA P K o x el r.
  Notation vv x := (fun i => val (vget O x i)).

  Lemma reported_almost out g : sr_out r = Ok out -> known_residual o out ->
    fin (so_residual out) -> 0 < val (p_alpha o) <= 1 -> (1 + u) ^ (4 * K) <= 1 + g -> g <= 1 / 8 ->
    almost P (err_z P K g eta (val (so_residual out)) (vv (v_z (sr_x r))) (vv (v_l (sr_x r))) (vv (v_v (sr_x r))))
             (err_l P K g eta (val (so_residual out)) (vv (v_z (sr_x r))))
             (err_c P g eta (val (p_alpha o)) (val (so_residual out)))
             (drift_bound (O:=O) (val:=val) (eta:=eta) (P:=P) (K:=K) (x:=x) (r:=r) g)
             (vv (v_z (sr_x r))) (vv (v_l (sr_x r))) (vv (v_v (sr_x r))) (vv (v_y (sr_x r))).
  Proof.
    intros E F Fr Ha G G'.
    assert (NI : infeas (so_eflag out) = false) by (destruct F as [F|[F _]]; rewrite F; reflexivity).
    assert (CT : fins O fin (n_z P) (v_z (sr_x r)) /\ fins O fin (n_v P) (v_y (sr_x r)) /\
      certified P K g eta (val (p_alpha o)) (val (so_residual out)) (vv (v_z (sr_x r))) (vv (v_l (sr_x r))) (vv (v_v (sr_x r))) (vv (v_y (sr_x r)))).
    { destruct F as [F|[F L]];
        [destruct (C63_success_certificate W LA call out g E F Fr Ha G G') as (F1 & _ & _ & F4 & CE)|
         destruct (C63_maxiter_certificate W LA call out g E F L Fr Ha G G') as (F1 & _ & _ & F4 & CE)]; auto. }
    destruct CT as (F1 & F4 & CE).
    apply certified_almost; [lra|exact CE|]. exact (C64_slack_drift W LA call out g E NI F1 F4 G G').
  Qed.

  Theorem C68_objective : forall out g w, sr_out r = Ok out -> known_residual o out ->
    fin (so_residual out) -> 0 < val (p_alpha o) <= 1 -> (1 + u) ^ (4 * K) <= 1 + g -> g <= 1 / 8 ->
    convex P -> feasible P w ->
    let z := vv (v_z (sr_x r)) in let l := vv (v_l (sr_x r)) in let v := vv (v_v (sr_x r)) in
    objective P z <= objective P w +
      gap_bound P (err_z P K g eta (val (so_residual out)) z l v) (err_l P K g eta (val (so_residual out)) z)
                  (err_c P g eta (val (p_alpha o)) (val (so_residual out)))
                  (drift_bound (O:=O) (val:=val) (eta:=eta) (P:=P) (K:=K) (x:=x) (r:=r) g) z l v (vv (v_y (sr_x r))) w.
  Proof.
    intros out g w E F Fr Ha G G' CV FW. cbv zeta. apply objective_bound; [exact CV| |exact FW].
    apply reported_almost; assumption.
  Qed.

  Theorem C68_distance : forall out g w ls vs, sr_out r = Ok out -> known_residual o out ->
    fin (so_residual out) -> 0 < val (p_alpha o) <= 1 -> (1 + u) ^ (4 * K) <= 1 + g -> g <= 1 / 8 ->
    convex P -> KKT P w ls vs ->
    let z := vv (v_z (sr_x r)) in let l := vv (v_l (sr_x r)) in let v := vv (v_v (sr_x r)) in
    quad P (fun i => z i - w i) <=
      distance_bound P (err_z P K g eta (val (so_residual out)) z l v) (err_l P K g eta (val (so_residual out)) z)
                  (err_c P g eta (val (p_alpha o)) (val (so_residual out)))
                  (drift_bound (O:=O) (val:=val) (eta:=eta) (P:=P) (K:=K) (x:=x) (r:=r) g) z l v (vv (v_y (sr_x r))) w ls vs.
  Proof.
    intros out g w ls vs E F Fr Ha G G' CV FW. cbv zeta. apply distance_bound_ok; [exact CV| |exact FW].
    apply reported_almost; assumption.
  Qed.
End Calls.

Section Doubles.
  Context (LA : LinAlg B64) {P : QP} {K : nat} {o : params B64} {x : var B64} {el : B64} {r : solve_result B64}.
  Hypothesis call : fsolves Bops Bval LA P K o x el r.
  Notation vv x := (fun i => B2R (vget Bops x i)).
  Notation g := (INR K / 2 ^ 50).
  Notation e := (/ 2 ^ 1075).

  (* the objective of the returned point exceeds that of any feasible w by at most gap_bound *)
  Theorem C68_doubles_objective : forall out w, sr_out r = Ok out -> known_residual o out ->
    is_finite (so_residual out) = true -> is_finite (p_alpha o) = true -> (Z.of_nat K <= 2 ^ 47)%Z ->
    convex P -> feasible P w ->
    let z := vv (v_z (sr_x r)) in let l := vv (v_l (sr_x r)) in let v := vv (v_v (sr_x r)) in
    objective P z <= objective P w +
      gap_bound P (err_z P K g e (B2R (so_residual out)) z l v) (err_l P K g e (B2R (so_residual out)) z)
                  (err_c P g e (B2R (p_alpha o)) (B2R (so_residual out)))
                  (doubles_drift (P:=P) (K:=K) (x:=x) (r:=r)) z l v (vv (v_y (sr_x r))) w.
  Proof.
    intros out w E F Fr Fa HK CV FW. destruct (K_bound K HK) as [G1 G2].
    destruct (fsolves_fcall Bops Bval LA Brounded _ _ _ _ _ _ call) as (D & DI & d & pinit & pst & stale & ww & [SC AP CD _ _]).
    pose proof (C68_objective Brounded LA call out _ w E F Fr (solve_alpha_B _ _ _ _ _ _ _ _ _ _ _ SC Fa) G1 G2 CV FW) as H.
    unfold drift_bound in H. rewrite Beta_eq in H. exact H.
  Qed.

  (* and it is that close, in the norm of H, to every solution w *)
  Theorem C68_doubles_distance : forall out w ls vs, sr_out r = Ok out -> known_residual o out ->
    is_finite (so_residual out) = true -> is_finite (p_alpha o) = true -> (Z.of_nat K <= 2 ^ 47)%Z ->
    convex P -> KKT P w ls vs ->
    let z := vv (v_z (sr_x r)) in let l := vv (v_l (sr_x r)) in let v := vv (v_v (sr_x r)) in
    quad P (fun i => z i - w i) <=
      distance_bound P (err_z P K g e (B2R (so_residual out)) z l v) (err_l P K g e (B2R (so_residual out)) z)
                  (err_c P g e (B2R (p_alpha o)) (B2R (so_residual out)))
                  (doubles_drift (P:=P) (K:=K) (x:=x) (r:=r)) z l v (vv (v_y (sr_x r))) w ls vs.
  Proof.
    intros out w ls vs E F Fr Fa HK CV FW. destruct (K_bound K HK) as [G1 G2].
    destruct (fsolves_fcall Bops Bval LA Brounded _ _ _ _ _ _ call) as (D & DI & d & pinit & pst & stale & ww & [SC AP CD _ _]).
    pose proof (C68_distance Brounded LA call out _ w ls vs E F Fr (solve_alpha_B _ _ _ _ _ _ _ _ _ _ _ SC Fa) G1 G2 CV FW) as H.
    unfold drift_bound in H. rewrite Beta_eq in H. exact H.
  Qed.
End Doubles.
