(* C70: a problem without a solution is not reported as solved with a small residual. *)
From Verif Require Export PropsRunR PropsGap.
From Verif Require Import BinOps.
From Flocq Require Import Core.Core IEEE754.BinarySingleNaN.
Local Open Scope R_scope.

(* ---------- specification ---------- *)
Section Spec.
  Variable P : QP.
  Notation nz := (n_z P). Notation nl := (n_l P). Notation nv := (n_v P).
  (* exact Farkas multipliers: G'l + A'v = 0, v >= 0, h'l + b'v < 0; they exist whenever the constraints are contradictory *)
  Record contradiction (l v : nat -> R) : Prop := {
    co_rows : forall i, (i < nz)%nat -> ttimes nl (cG P) l i + ttimes nv (cA P) v i = 0;
    co_sign : forall k, (k < nv)%nat -> 0 <= v k;
    co_value : rsum nl (fun k => ch P k * l k) + rsum nv (fun k => cb P k * v k) < 0 }.
  (* a direction of descent that never ends: Hd = 0, Gd = 0, Ad <= 0, f'd < 0 *)
  Record descent_ray (d : nat -> R) : Prop := {
    de_H : forall i, (i < nz)%nat -> times nz (cH P) d i = 0;
    de_G : forall k, (k < nl)%nat -> times nz (cG P) d k = 0;
    de_A : forall k, (k < nv)%nat -> times nz (cA P) d k <= 0;
    de_f : rsum nz (fun i => cf P i * d i) < 0 }.
End Spec.

Section Math.
  Context (P : QP).
  Notation nz := (n_z P). Notation nl := (n_l P). Notation nv := (n_v P).

  (* what the two notions are for *)
  Theorem C70_contradiction_infeasible : forall l v z, contradiction P l v -> ~ feasible P z.
  Proof.
    intros l v z [C1 C2 C3] F.
    apply (C31_exact_certificate P l v) with (z := z); [|exact C2|exact F]. split; [|exact C3].
    intros i Hi. rewrite (C1 i Hi), Rabs_R0. lra.
  Qed.
  Theorem C70_ray_unbounded : forall d w, convex P -> descent_ray P d -> feasible P w ->
    forall M, exists w', feasible P w' /\ objective P w' < M.
  Proof.
    intros d w [sym _] [D1 D2 D3 D4] [F1 F2] M. set (s := rsum nz (fun i => cf P i * d i)) in *.
    set (t := Rmax 0 ((objective P w - M + 1) / - s)). assert (T0 : 0 <= t) by apply Rmax_l.
    set (w' := fun i => w i + t * d i). exists w'.
    assert (TM : forall (Q : nat -> nat -> R) k, times nz Q w' k = times nz Q w k + t * times nz Q d k).
    { intros Q k. unfold times, w'. rewrite <- rsum_scal, <- rsum_add. apply rsum_ext. intros; ring. }
    split; [split|].
    - intros k Hk. rewrite TM, (D2 k Hk), (F1 k Hk). ring.
    - intros k Hk. rewrite TM. specialize (D3 k Hk). specialize (F2 k Hk). nra.
    - assert (E : objective P w' = objective P w + t * s).
      { unfold objective. assert (Q := quad_expand nz (cH P) w d t sym). fold (quad P w) in Q.
        change (rsum nz (fun i => rsum nz (fun j => (w i + t * d i) * cH P i j * (w j + t * d j)))) with (quad P w') in Q.
        rewrite Q.
        assert (E1 : rsum nz (fun i => d i * rsum nz (fun j => cH P i j * w j)) = 0).
        { rewrite (rsum_ext nz _ (fun i => times nz (cH P) w i * d i)) by (intros; unfold times; ring).
          rewrite (H_adj P sym). apply rsum_zero. intros i Hi. rewrite (D1 i Hi). ring. }
        assert (E3 : rsum nz (fun i => rsum nz (fun j => d i * cH P i j * d j)) = 0).
        { apply rsum_zero. intros i Hi. rewrite (rsum_ext nz _ (fun j => d i * (cH P i j * d j))) by (intros; ring).
          rewrite rsum_scal. change (rsum nz (fun j => cH P i j * d j)) with (times nz (cH P) d i). rewrite (D1 i Hi). ring. }
        assert (E2 : rsum nz (fun i => cf P i * w' i) = rsum nz (fun i => cf P i * w i) + t * s).
        { unfold s. rewrite <- rsum_scal, <- rsum_add. apply rsum_ext. intros; unfold w'; ring. }
        rewrite E1, E2, E3. ring. }
      assert (T1 : (objective P w - M + 1) / - s <= t) by apply Rmax_r.
      apply (Rmult_le_compat_r (- s)) in T1; [|lra].
      replace ((objective P w - M + 1) / - s * - s) with (objective P w - M + 1) in T1 by (field; lra). lra.
  Qed.

  (* an approximate KKT point (almost: PropsGap.v) has errors at least this large *)
  Theorem contradiction_cost : forall S E c D z l v y lc vc, almost P S E c D z l v y -> contradiction P lc vc ->
    - (rsum nl (fun k => ch P k * lc k) + rsum nv (fun k => cb P k * vc k)) <=
    rsum nl (fun k => E k * Rabs (lc k)) + rsum nv (fun k => (c + D k) * vc k).
  Proof.
    intros S E c D z l v y lc vc A [C1 C2 C3].
    assert (X : rsum nz (fun i => (ttimes nl (cG P) lc i + ttimes nv (cA P) vc i) * z i) = 0).
    { apply rsum_zero. intros i Hi. rewrite (C1 i Hi). ring. }
    assert (E0 : rsum nz (fun i => (ttimes nl (cG P) lc i + ttimes nv (cA P) vc i) * z i) =
                rsum nl (fun k => lc k * times nz (cG P) z k) + rsum nv (fun k => vc k * times nz (cA P) z k)).
    { rewrite <- !adjoint, <- rsum_add. apply rsum_ext. intros; ring. }
    rewrite E0 in X.
    pose proof (dot_bound nl (fun k => ch P k - times nz (cG P) z k) lc E (al_l _ _ _ _ _ _ _ _ _ A)) as B1.
    pose proof (Rle_abs (- rsum nl (fun k => (ch P k - times nz (cG P) z k) * lc k))) as B1'. rewrite Rabs_Ropp in B1'.
    assert (S1 : rsum nl (fun k => (ch P k - times nz (cG P) z k) * lc k) = rsum nl (fun k => ch P k * lc k) - rsum nl (fun k => lc k * times nz (cG P) z k)).
    { rewrite <- rsum_sub. apply rsum_ext. intros; ring. }
    assert (B2 : rsum nv (fun k => vc k * times nz (cA P) z k) - rsum nv (fun k => cb P k * vc k) <= rsum nv (fun k => (c + D k) * vc k)).
    { rewrite <- rsum_sub. apply rsum_le. intros k Hk. specialize (C2 k Hk).
      pose proof (al_c _ _ _ _ _ _ _ _ _ A k Hk) as C. pose proof (al_y _ _ _ _ _ _ _ _ _ A k Hk) as Y.
      pose proof (Rmin_l (y k) (v k)). pose proof (Rle_abs (- Rmin (y k) (v k))) as Q. rewrite Rabs_Ropp in Q.
      pose proof (Rle_abs (y k - (cb P k - times nz (cA P) z k))).
      replace (vc k * times nz (cA P) z k - cb P k * vc k) with ((times nz (cA P) z k - cb P k) * vc k) by ring.
      apply Rmult_le_compat_r; [exact C2|]. lra. }
    lra.
  Qed.
  Theorem ray_cost : forall S E c D z l v y d, convex P -> almost P S E c D z l v y -> descent_ray P d ->
    - rsum nz (fun i => cf P i * d i) <= rsum nz (fun i => S i * Rabs (d i)) + c * rsum nv (fun k => - times nz (cA P) d k).
  Proof.
    intros S E c D z l v y d [sym _] A [D1 D2 D3 D4].
    pose proof (dot_bound nz _ d S (al_z _ _ _ _ _ _ _ _ _ A)) as B1. cbv beta in B1.
    match type of B1 with Rabs ?a <= _ => pose proof (Rle_abs a) as B1' end.
    assert (X : rsum nz (fun i => (cf P i + times nz (cH P) z i + ttimes nl (cG P) l i + ttimes nv (cA P) v i) * d i) =
      rsum nz (fun i => cf P i * d i) + rsum nz (fun i => times nz (cH P) z i * d i) +
      rsum nl (fun k => l k * times nz (cG P) d k) + rsum nv (fun k => v k * times nz (cA P) d k)).
    { rewrite <- !adjoint, <- !rsum_add. apply rsum_ext. intros; ring. }
    assert (X1 : rsum nz (fun i => times nz (cH P) z i * d i) = 0).
    { rewrite (H_adj P sym). apply rsum_zero. intros i Hi. rewrite (D1 i Hi). ring. }
    assert (X2 : rsum nl (fun k => l k * times nz (cG P) d k) = 0).
    { apply rsum_zero. intros k Hk. rewrite (D2 k Hk). ring. }
    assert (X3 : rsum nv (fun k => v k * times nz (cA P) d k) <= c * rsum nv (fun k => - times nz (cA P) d k)).
    { rewrite <- rsum_scal. apply rsum_le. intros k Hk. specialize (D3 k Hk).
      pose proof (al_c _ _ _ _ _ _ _ _ _ A k Hk) as C. pose proof (Rmin_r (y k) (v k)).
      pose proof (Rle_abs (- Rmin (y k) (v k))) as Q. rewrite Rabs_Ropp in Q. nra. }
    assert (X4 : - rsum nz (fun i => S i * Rabs (d i)) <= rsum nz (fun i => (cf P i + times nz (cH P) z i + ttimes nl (cG P) l i + ttimes nv (cA P) v i) * d i)).
    { match type of B1 with Rabs ?a <= _ => pose proof (Rle_abs (- a)) as B3; rewrite Rabs_Ropp in B3 end. lra. }
    rewrite X, X1, X2 in *. lra.
  Qed.
End Math.

(* ---------- in real arithmetic ---------- *)
Lemma entry_norm n (a : nat -> R) e i : (i < n)%nat -> sqrt (rsum n (fun i => a i * a i)) <= e -> Rabs (a i) <= e.
Proof.
  intros Hi H. eapply Rle_trans; [|exact H]. rewrite <- sqrt_Rsqr_abs. unfold Rsqr. apply sqrt_le_1_alt.
  apply (rsum_term_le n (fun i => a i * a i) i Hi). intros; nra.
Qed.

Section Reals.
  Context {LA : LinAlg R} {P : QP} {o : params R} {x : var R} {el : R} {r : solve_result R}.
  Hypothesis call : solves LA P o x el r.
  Notation nz := (n_z P). Notation nl := (n_l P). Notation nv := (n_v P).
  Notation z := (rg (v_z (sr_x r))). Notation l := (rg (v_l (sr_x r))). Notation v := (rg (v_v (sr_x r))).

  Lemma reported_almost_R out : sr_out r = Ok out -> residual_reported o out ->
    let eps := so_residual out in
    almost P (fun _ => eps) (fun _ => eps) (eps / p_alpha o) (fun _ => 0) z l v (margin P z).
  Proof.
    intros E RR eps. destruct (C29_solve_bounds call out E RR) as (B1 & B2 & B3). fold eps in B1, B2, B3.
    assert (E0 : 0 <= eps) by (eapply Rle_trans; [apply sqrt_pos|exact B1]).
    assert (A0 : 0 < p_alpha o < 1) by (eapply solve_alpha; exact call).
    assert (E1 : 0 <= eps / p_alpha o) by (apply Rmult_le_pos; [exact E0|left; apply Rinv_0_lt_compat; lra]).
    constructor.
    - intros i Hi. pose proof (entry_norm nz (lagr P z l v) eps i Hi B1) as H. unfold lagr in H.
      match goal with |- Rabs ?a <= _ => match type of H with Rabs ?b <= _ => replace a with b by ring end end. exact H.
    - intros k Hk. pose proof (entry_norm nl _ eps k Hk B2) as H. cbv beta in H. rewrite Rabs_minus_sym. exact H.
    - intros k Hk. destruct (B3 k Hk) as (C1 & C2 & C3).
      assert (M : - (eps / p_alpha o) <= margin P z k) by (unfold margin; lra).
      apply Rabs_le. split; [apply Rmin_glb; lra|].
      destruct (Rlt_dec 0 (margin P z k)) as [Q1|Q1]; [|pose proof (Rmin_l (margin P z k) (v k)); lra].
      destruct (Rlt_dec 0 (v k)) as [Q2|Q2]; [|pose proof (Rmin_r (margin P z k) (v k)); lra].
      apply (C3 Q1 Q2).
    - intros k Hk. unfold margin. rewrite Rminus_diag_eq by reflexivity. rewrite Rabs_R0. lra.
  Qed.

  (* the constraints contradict each other: the reported residual cannot be small *)
  Theorem C70_infeasible_residual : forall out lc vc, sr_out r = Ok out -> residual_reported o out -> contradiction P lc vc ->
    0 < - (rsum nl (fun k => ch P k * lc k) + rsum nv (fun k => cb P k * vc k)) <=
        so_residual out * (norm1 nl lc + rsum nv vc / p_alpha o).
  Proof.
    intros out lc vc E RR C. split; [destruct C; lra|].
    pose proof (contradiction_cost P _ _ _ _ _ _ _ _ lc vc (reported_almost_R out E RR) C) as H. cbv beta in H.
    eapply Rle_trans; [exact H|]. right. unfold norm1. rewrite !rsum_scal. field.
    pose proof (solve_alpha _ _ _ _ _ _ call). lra.
  Qed.
  (* the objective is unbounded below along d *)
  Theorem C70_unbounded_residual : forall out d, sr_out r = Ok out -> residual_reported o out -> convex P -> descent_ray P d ->
    0 < - rsum nz (fun i => cf P i * d i) <=
        so_residual out * (norm1 nz d + rsum nv (fun k => - times nz (cA P) d k) / p_alpha o).
  Proof.
    intros out d E RR CV C. split; [destruct C; lra|].
    pose proof (ray_cost P _ _ _ _ _ _ _ _ d CV (reported_almost_R out E RR) C) as H. cbv beta in H.
    eapply Rle_trans; [exact H|]. right. unfold norm1. rewrite !rsum_scal. field.
    pose proof (solve_alpha _ _ _ _ _ _ call). lra.
  Qed.

  (* the last proximal step was shorter than the stall tolerance *)
  Definition stalled : Prop :=
    match c_step (after (start_at P x) (sr_trace r)) with
    | Some dx => var_norm Rops dx <= p_stall_tol o
    | None => sqrt (INR (nz + nl + nv)) <= p_stall_tol o
    end.
  (* with tolerances that are small enough for the problem, SUCCESS is not reported, except by the stall test *)
  Theorem C70_infeasible_no_success : forall out lc vc, sr_out r = Ok out -> contradiction P lc vc ->
    solve_tolerance P o * (norm1 nl lc + rsum nv vc / p_alpha o) <
      - (rsum nl (fun k => ch P k * lc k) + rsum nv (fun k => cb P k * vc k)) ->
    so_eflag out = SUCCESS -> stalled.
  Proof.
    intros out lc vc E C T F. destruct (C29_success_tolerance call out E F) as [H|H]; [|exact H]. exfalso.
    destruct (C70_infeasible_residual out lc vc E (or_introl F) C) as [_ H'].
    apply (Rmult_le_compat_r (norm1 nl lc + rsum nv vc / p_alpha o)) in H; [lra|].
    apply Rplus_le_le_0_compat; [apply rsum_nonneg; intros; apply Rabs_pos|].
    pose proof (solve_alpha _ _ _ _ _ _ call). apply Rmult_le_pos; [|left; apply Rinv_0_lt_compat; lra].
    apply rsum_nonneg. intros k Hk. exact (co_sign _ _ _ C k Hk).
  Qed.
  Theorem C70_unbounded_no_success : forall out d, sr_out r = Ok out -> convex P -> descent_ray P d ->
    solve_tolerance P o * (norm1 nz d + rsum nv (fun k => - times nz (cA P) d k) / p_alpha o) <
      - rsum nz (fun i => cf P i * d i) ->
    so_eflag out = SUCCESS -> stalled.
  Proof.
    intros out d E CV C T F. destruct (C29_success_tolerance call out E F) as [H|H]; [|exact H]. exfalso.
    destruct (C70_unbounded_residual out d E (or_introl F) CV C) as [_ H'].
    apply (Rmult_le_compat_r (norm1 nz d + rsum nv (fun k => - times nz (cA P) d k) / p_alpha o)) in H; [lra|].
    apply Rplus_le_le_0_compat; [apply rsum_nonneg; intros; apply Rabs_pos|].
    pose proof (solve_alpha _ _ _ _ _ _ call). apply Rmult_le_pos; [|left; apply Rinv_0_lt_compat; lra].
    apply rsum_nonneg. intros k Hk. pose proof (de_A _ _ C k Hk). lra.
  Qed.
End Reals.

(* ---------- with rounding, and on doubles ---------- *)
Section Calls.
  Context {T : Type} {O : Ops T} {fin : T -> Prop} {val : T -> R} {u eta : R}.
  Hypothesis W : Rounded O fin val u eta.
  Context (LA : LinAlg T) {P : QP} {K : nat} {o : params T} {x : var T} {el : T} {r : solve_result T}.
  Hypothesis call : fsolves O val LA P K o x el r.
  Notation nz := (n_z P). Notation nl := (n_l P). Notation nv := (n_v P).
  Notation vv x := (fun i => val (vget O x i)).

  Theorem C70_rounded_infeasible : forall out g lc vc, sr_out r = Ok out -> known_residual o out ->
    fin (so_residual out) -> 0 < val (p_alpha o) <= 1 -> (1 + u) ^ (4 * K) <= 1 + g -> g <= 1 / 8 ->
    contradiction P lc vc ->
    - (rsum nl (fun k => ch P k * lc k) + rsum nv (fun k => cb P k * vc k)) <=
    rsum nl (fun k => err_l P K g eta (val (so_residual out)) (vv (v_z (sr_x r))) k * Rabs (lc k)) +
    rsum nv (fun k => (err_c P g eta (val (p_alpha o)) (val (so_residual out)) +
                       drift_bound (O:=O) (val:=val) (eta:=eta) (P:=P) (K:=K) (x:=x) (r:=r) g k) * vc k).
  Proof.
    intros out g lc vc E F Fr Ha G G' C.
    exact (contradiction_cost P _ _ _ _ _ _ _ _ lc vc (reported_almost W LA call out g E F Fr Ha G G') C).
  Qed.
  Theorem C70_rounded_unbounded : forall out g d, sr_out r = Ok out -> known_residual o out ->
    fin (so_residual out) -> 0 < val (p_alpha o) <= 1 -> (1 + u) ^ (4 * K) <= 1 + g -> g <= 1 / 8 ->
    convex P -> descent_ray P d ->
    - rsum nz (fun i => cf P i * d i) <=
    rsum nz (fun i => err_z P K g eta (val (so_residual out)) (vv (v_z (sr_x r))) (vv (v_l (sr_x r))) (vv (v_v (sr_x r))) i * Rabs (d i)) +
    err_c P g eta (val (p_alpha o)) (val (so_residual out)) * rsum nv (fun k => - times nz (cA P) d k).
  Proof.
    intros out g d E F Fr Ha G G' CV C.
    exact (ray_cost P _ _ _ _ _ _ _ _ d CV (reported_almost W LA call out g E F Fr Ha G G') C).
  Qed.
End Calls.

Section Doubles.
  Context (LA : LinAlg B64) {P : QP} {K : nat} {o : params B64} {x : var B64} {el : B64} {r : solve_result B64}.
  Hypothesis call : fsolves Bops Bval LA P K o x el r.
  Notation nz := (n_z P). Notation nl := (n_l P). Notation nv := (n_v P).
  Notation vv x := (fun i => B2R (vget Bops x i)).
  Notation g := (INR K / 2 ^ 50).
  Notation e := (/ 2 ^ 1075).

  Theorem C70_doubles_infeasible : forall out lc vc, sr_out r = Ok out -> known_residual o out ->
    is_finite (so_residual out) = true -> is_finite (p_alpha o) = true -> (Z.of_nat K <= 2 ^ 47)%Z ->
    contradiction P lc vc ->
    - (rsum nl (fun k => ch P k * lc k) + rsum nv (fun k => cb P k * vc k)) <=
    rsum nl (fun k => err_l P K g e (B2R (so_residual out)) (vv (v_z (sr_x r))) k * Rabs (lc k)) +
    rsum nv (fun k => (err_c P g e (B2R (p_alpha o)) (B2R (so_residual out)) +
                       doubles_drift (P:=P) (K:=K) (x:=x) (r:=r) k) * vc k).
  Proof.
    intros out lc vc E F Fr Fa HK C. destruct (K_bound K HK) as [G1 G2].
    destruct (fsolves_fcall Bops Bval LA Brounded _ _ _ _ _ _ call) as (D & DI & d & pinit & pst & stale & ww & [SC AP CD _ _]).
    pose proof (C70_rounded_infeasible Brounded LA call out _ lc vc E F Fr (solve_alpha_B _ _ _ _ _ _ _ _ _ _ _ SC Fa) G1 G2 C) as H.
    unfold drift_bound in H. rewrite Beta_eq in H. exact H.
  Qed.
  Theorem C70_doubles_unbounded : forall out d, sr_out r = Ok out -> known_residual o out ->
    is_finite (so_residual out) = true -> is_finite (p_alpha o) = true -> (Z.of_nat K <= 2 ^ 47)%Z ->
    convex P -> descent_ray P d ->
    - rsum nz (fun i => cf P i * d i) <=
    rsum nz (fun i => err_z P K g e (B2R (so_residual out)) (vv (v_z (sr_x r))) (vv (v_l (sr_x r))) (vv (v_v (sr_x r))) i * Rabs (d i)) +
    err_c P g e (B2R (p_alpha o)) (B2R (so_residual out)) * rsum nv (fun k => - times nz (cA P) d k).
  Proof.
    intros out d0 E F Fr Fa HK CV C. destruct (K_bound K HK) as [G1 G2].
    destruct (fsolves_fcall Bops Bval LA Brounded _ _ _ _ _ _ call) as (D & DI & d & pinit & pst & stale & ww & [SC AP CD _ _]).
    pose proof (C70_rounded_unbounded Brounded LA call out _ d0 E F Fr (solve_alpha_B _ _ _ _ _ _ _ _ _ _ _ SC Fa) G1 G2 CV C) as H.
    rewrite Beta_eq in H. exact H.
  Qed.
End Doubles.
