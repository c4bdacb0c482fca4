(* The Newton system of a proximal subproblem, its weights, and directional derivatives of the
   penalised Fischer-Burmeister function.  Specification over the reals; the only definition of
   the model used here is [phi]. *)
From Verif Require Export RComp PropsKKT.
Local Open Scope R_scope.

(* [H+sI, G', A'; -G, sI, 0; -diag(g)A, 0, diag(m)] (dz,dl,dv) = (rz,rl,rv),
   the system documented in dense_cholesky_solver.h and riccati_linear_solver.h *)
Definition newton_system (P : QP) (sigma : R) (g m dz dl dv rz rl rv : nat -> R) : Prop :=
  (forall i, (i < n_z P)%nat ->
     times (n_z P) (cH P) dz i + sigma * dz i + ttimes (n_l P) (cG P) dl i + ttimes (n_v P) (cA P) dv i = rz i) /\
  (forall k, (k < n_l P)%nat -> - times (n_z P) (cG P) dz k + sigma * dl k = rl k) /\
  (forall k, (k < n_v P)%nat -> - (g k * times (n_z P) (cA P) dz k) + m k * dv k = rv k).

Definition weights_ok (P : QP) (g m : nat -> R) : Prop :=
  forall k, (k < n_v P)%nat -> 0 <= g k /\ 0 < m k.

Lemma inner_prod n u v : rsum n (fun i => u i * v i) = rsum n (fun i => v i * u i).
Proof. apply rsum_ext. intros; ring. Qed.

(* <A'v, z> = <v, Az> *)
Lemma ttimes_dot n m M z v :
  rsum n (fun i => z i * ttimes m M v i) = rsum m (fun k => v k * times n M z k).
Proof.
  unfold ttimes, times.
  transitivity (rsum n (fun i => rsum m (fun k => z i * (M k i * v k)))).
  { apply rsum_ext; intros i _. rewrite rsum_scal. reflexivity. }
  rewrite rsum_swap. apply rsum_ext; intros k _. rewrite <- rsum_scal. apply rsum_ext; intros i _. ring.
Qed.
Lemma times_dot_quad P z : rsum (n_z P) (fun i => z i * times (n_z P) (cH P) z i) = quad P z.
Proof.
  unfold quad, times. apply rsum_ext; intros i _. rewrite <- rsum_scal. apply rsum_ext; intros j _. ring.
Qed.

(* a homogeneous solution is zero *)
Lemma newton_kernel P sigma g m dz dl dv : convex P -> 0 < sigma -> weights_ok P g m ->
  newton_system P sigma g m dz dl dv (fun _ => 0) (fun _ => 0) (fun _ => 0) ->
  (forall i, (i < n_z P)%nat -> dz i = 0) /\ (forall k, (k < n_l P)%nat -> dl k = 0) /\
  (forall k, (k < n_v P)%nat -> dv k = 0).
Proof.
  intros [Hs Hp] Hsig W (E1 & E2 & E3).
  assert (V : forall k, (k < n_v P)%nat -> dv k = g k / m k * times (n_z P) (cA P) dz k).
  { intros k Hk. destruct (W k Hk) as [Wg Wm]. specialize (E3 k Hk). field_simplify_eq; lra. }
  assert (Q : rsum (n_z P) (fun i => dz i * (times (n_z P) (cH P) dz i + sigma * dz i +
              ttimes (n_l P) (cG P) dl i + ttimes (n_v P) (cA P) dv i)) = 0).
  { apply rsum_zero. intros i Hi. rewrite E1 by exact Hi. ring. }
  assert (X : quad P dz + sigma * rsum (n_z P) (fun i => dz i * dz i) +
              rsum (n_l P) (fun k => dl k * times (n_z P) (cG P) dz k) +
              rsum (n_v P) (fun k => dv k * times (n_z P) (cA P) dz k) = 0).
  { rewrite <- Q, <- times_dot_quad, <- (ttimes_dot (n_z P) (n_l P)), <- (ttimes_dot (n_z P) (n_v P)),
      <- rsum_scal, <- !rsum_add. apply rsum_ext; intros; ring. }
  assert (X1 : rsum (n_l P) (fun k => dl k * times (n_z P) (cG P) dz k) =
               sigma * rsum (n_l P) (fun k => dl k * dl k)).
  { rewrite <- rsum_scal. apply rsum_ext; intros k Hk. specialize (E2 k Hk).
    replace (times (n_z P) (cG P) dz k) with (sigma * dl k) by lra. ring. }
  assert (X2 : 0 <= rsum (n_v P) (fun k => dv k * times (n_z P) (cA P) dz k)).
  { apply rsum_nonneg. intros k Hk. rewrite V by exact Hk. destruct (W k Hk) as [Wg Wm].
    assert (0 <= g k / m k) by (apply Rmult_le_pos; [exact Wg|left; apply Rinv_0_lt_compat; exact Wm]).
    set (t := times _ _ _ _). rewrite Rmult_assoc. apply Rmult_le_pos; [assumption|apply Rle_0_sqr]. }
  assert (X3 : 0 <= rsum (n_z P) (fun i => dz i * dz i)) by (apply rsum_nonneg; intros; apply Rle_0_sqr).
  assert (X4 : 0 <= rsum (n_l P) (fun i => dl i * dl i)) by (apply rsum_nonneg; intros; apply Rle_0_sqr).
  assert (X5 := Hp dz). rewrite X1 in X.
  assert (Z : rsum (n_z P) (fun i => dz i * dz i) = 0) by nra.
  assert (L : rsum (n_l P) (fun i => dl i * dl i) = 0) by nra.
  assert (Z' := rsum_sq_zero _ _ Z). assert (L' := rsum_sq_zero _ _ L).
  split; [exact Z'|]. split; [exact L'|]. intros k Hk. rewrite V by exact Hk.
  unfold times. rewrite rsum_zero; [ring|]. intros j Hj. rewrite Z' by exact Hj. ring.
Qed.

Lemma times_minus m M x y i : times m M (fun j => x j - y j) i = times m M x i - times m M y i.
Proof. unfold times. rewrite <- rsum_sub. apply rsum_ext; intros; ring. Qed.
Lemma ttimes_minus m M x y i : ttimes m M (fun j => x j - y j) i = ttimes m M x i - ttimes m M y i.
Proof. unfold ttimes. rewrite <- rsum_sub. apply rsum_ext; intros; ring. Qed.

(* at most one solution *)
Theorem C34_newton_unique : forall P sigma g m rz rl rv dz dl dv dz' dl' dv',
  convex P -> 0 < sigma -> weights_ok P g m ->
  newton_system P sigma g m dz dl dv rz rl rv -> newton_system P sigma g m dz' dl' dv' rz rl rv ->
  (forall i, (i < n_z P)%nat -> dz i = dz' i) /\ (forall k, (k < n_l P)%nat -> dl k = dl' k) /\
  (forall k, (k < n_v P)%nat -> dv k = dv' k).
Proof.
  intros P sigma g m rz rl rv dz dl dv dz' dl' dv' C S W (A1 & A2 & A3) (B1 & B2 & B3).
  destruct (newton_kernel P sigma g m (fun i => dz i - dz' i) (fun i => dl i - dl' i)
              (fun i => dv i - dv' i) C S W) as (K1 & K2 & K3).
  { split; [|split]; intros k Hk.
    - rewrite times_minus, !ttimes_minus. specialize (A1 k Hk). specialize (B1 k Hk). lra.
    - rewrite times_minus. specialize (A2 k Hk). specialize (B2 k Hk). lra.
    - rewrite times_minus. specialize (A3 k Hk). specialize (B3 k Hk). lra. }
  split; [|split]; intros k Hk.
  - specialize (K1 k Hk). lra.
  - specialize (K2 k Hk). lra.
  - specialize (K3 k Hk). lra.
Qed.
Print Assumptions C34_newton_unique.
