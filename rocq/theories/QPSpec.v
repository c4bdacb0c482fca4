(* The mathematical vocabulary of the property statements over the reals: convex quadratic
   programs, their optimality conditions, proximal points.  Nothing here refers to the model of
   the code. *)
From Verif Require Export RSum.
Local Open Scope R_scope.

(* minimise 1/2 z'Hz + f'z  subject to  Gz = h,  Az <= b *)
Record QP : Type := mkQP {
  n_z : nat; n_l : nat; n_v : nat;
  cH : nat -> nat -> R; cf : nat -> R;
  cG : nat -> nat -> R; ch : nat -> R;
  cA : nat -> nat -> R; cb : nat -> R }.

(* (M x)_i with M having m columns, (M' x)_j with M having m rows *)
Definition times (m : nat) (M : nat -> nat -> R) (x : nat -> R) (i : nat) : R :=
  rsum m (fun j => M i j * x j).
Definition ttimes (m : nat) (M : nat -> nat -> R) (x : nat -> R) (j : nat) : R :=
  rsum m (fun i => M i j * x i).

Section Spec.
  Variable P : QP.

  Definition quad (z : nat -> R) : R :=
    rsum (n_z P) (fun i => rsum (n_z P) (fun j => z i * cH P i j * z j)).
  Definition objective (z : nat -> R) : R :=
    1 / 2 * quad z + rsum (n_z P) (fun i => cf P i * z i).

  Definition feasible (z : nat -> R) : Prop :=
    (forall k, (k < n_l P)%nat -> times (n_z P) (cG P) z k = ch P k) /\
    (forall k, (k < n_v P)%nat -> times (n_z P) (cA P) z k <= cb P k).

  Definition minimiser (z : nat -> R) : Prop :=
    feasible z /\ forall w, feasible w -> objective z <= objective w.

  Definition convex : Prop :=
    (forall i j, (i < n_z P)%nat -> (j < n_z P)%nat -> cH P i j = cH P j i) /\
    (forall z, 0 <= quad z).

  (* gradient of the Lagrangian, (Hz + f + G'l + A'v)_i *)
  Definition lagr (z l v : nat -> R) (i : nat) : R :=
    times (n_z P) (cH P) z i + cf P i + ttimes (n_l P) (cG P) l i + ttimes (n_v P) (cA P) v i.
  (* constraint margin (b - Az)_k *)
  Definition margin (z : nat -> R) (k : nat) : R := cb P k - times (n_z P) (cA P) z k.

  Definition KKT (z l v : nat -> R) : Prop :=
    (forall i, (i < n_z P)%nat -> lagr z l v i = 0) /\
    feasible z /\
    (forall k, (k < n_v P)%nat -> 0 <= v k /\ v k * margin z k = 0).

  (* the proximal point of (zb,lb,vb): solution of the sigma-regularised KKT system *)
  Definition proximal (sigma : R) (zb lb vb z l v : nat -> R) : Prop :=
    (forall i, (i < n_z P)%nat -> lagr z l v i + sigma * (z i - zb i) = 0) /\
    (forall k, (k < n_l P)%nat -> ch P k - times (n_z P) (cG P) z k + sigma * (l k - lb k) = 0) /\
    (forall k, (k < n_v P)%nat ->
       let s := margin z k + sigma * (v k - vb k) in 0 <= s /\ 0 <= v k /\ s * v k = 0).
End Spec.
