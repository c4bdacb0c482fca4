(* The optimal control problem of the documentation (fbstab_mpc.h:20-36) and the explicit QP it
   stands for (fbstab_mpc.h:42-53), independent of the model of the code. *)
From Verif Require Export QPSpec.
Local Open Scope R_scope.

(* stage data: first argument the stage, then row and column *)
Record OCP : Type := mkOCP {
  oN : nat; onx : nat; onu : nat; onc : nat;
  cQ : nat -> nat -> nat -> R; cR : nat -> nat -> nat -> R; cS : nat -> nat -> nat -> R;
  cq : nat -> nat -> R; cr : nat -> nat -> R;
  oA : nat -> nat -> nat -> R; oB : nat -> nat -> nat -> R; oc : nat -> nat -> R;
  oE : nat -> nat -> nat -> R; oL : nat -> nat -> nat -> R; od : nat -> nat -> R;
  ox0 : nat -> R }.

Section OCPSpec.
  Variable o : OCP.
  Notation N := (oN o). Notation nx := (onx o). Notation nu := (onu o). Notation nc := (onc o).

  (* u'Mw for an r x c matrix *)
  Definition bil (r c : nat) (M : nat -> nat -> R) (u w : nat -> R) : R :=
    rsum r (fun i => rsum c (fun j => u i * M i j * w j)).

  (* 1/2 [x;u]'[Q S'; S R][x;u] + q'x + r'u *)
  Definition stage_cost (k : nat) (x u : nat -> R) : R :=
    1 / 2 * (bil nx nx (cQ o k) x x + 2 * bil nu nx (cS o k) u x + bil nu nu (cR o k) u u) +
    rsum nx (fun i => cq o k i * x i) + rsum nu (fun i => cr o k i * u i).
  Definition total_cost (x u : nat -> nat -> R) : R :=
    rsum (N + 1) (fun k => stage_cost k (x k) (u k)).

  (* x(0) = x0, the dynamics, the stage constraints *)
  Definition trajectory (x u : nat -> nat -> R) : Prop :=
    (forall i, (i < nx)%nat -> x 0%nat i = ox0 o i) /\
    (forall k i, (k < N)%nat -> (i < nx)%nat ->
       x (S k) i = times nx (oA o k) (x k) i + times nu (oB o k) (u k) i + oc o k i) /\
    (forall k i, (k < N + 1)%nat -> (i < nc)%nat ->
       times nx (oE o k) (x k) i + times nu (oL o k) (u k) i + od o k i <= 0).

  Definition stagewise_convex : Prop :=
    (forall k i j, (k < N + 1)%nat -> (i < nx)%nat -> (j < nx)%nat -> cQ o k i j = cQ o k j i) /\
    (forall k i j, (k < N + 1)%nat -> (i < nu)%nat -> (j < nu)%nat -> cR o k i j = cR o k j i) /\
    (forall k x u, (k < N + 1)%nat ->
       0 <= bil nx nx (cQ o k) x x + 2 * bil nu nx (cS o k) u x + bil nu nu (cR o k) u u).

  (* z = (x(0),u(0),...,x(N),u(N)) *)
  Notation w := (nx + nu)%nat.
  Definition stack (x u : nat -> nat -> R) (p : nat) : R :=
    if (p mod w <? nx)%nat then x (p / w)%nat (p mod w)%nat else u (p / w)%nat (p mod w - nx)%nat.

  (* [Q S'; S R] and [E L] of stage k *)
  Definition stageH (k i j : nat) : R :=
    if (i <? nx)%nat
    then (if (j <? nx)%nat then cQ o k i j else cS o k (j - nx)%nat i)
    else (if (j <? nx)%nat then cS o k (i - nx)%nat j else cR o k (i - nx)%nat (j - nx)%nat).
  Definition stageEL (k i j : nat) : R :=
    if (j <? nx)%nat then oE o k i j else oL o k i (j - nx)%nat.
  Definition stageAB (k i j : nat) : R :=
    if (j <? nx)%nat then oA o k i j else oB o k i (j - nx)%nat.

  (* the explicit QP: H block diagonal, A block diagonal, G = [-I; A(0) B(0) -I; ...] *)
  Definition ocp_qp : QP := {|
    n_z := (N + 1) * w; n_l := (N + 1) * nx; n_v := (N + 1) * nc;
    cH := fun p q => if (p / w =? q / w)%nat then stageH (p / w) (p mod w) (q mod w) else 0;
    cf := fun p => if (p mod w <? nx)%nat then cq o (p / w)%nat (p mod w)%nat
                   else cr o (p / w)%nat (p mod w - nx)%nat;
    cG := fun p q =>
      if (q / w =? p / nx)%nat then (if (q mod w =? p mod nx)%nat then -1 else 0)
      else if (S (q / w) =? p / nx)%nat then stageAB (q / w) (p mod nx) (q mod w) else 0;
    ch := fun p => match (p / nx)%nat with O => - ox0 o (p mod nx)%nat
                                    | S k => - oc o k (p mod nx)%nat end;
    cA := fun p q => if (p / nc =? q / w)%nat then stageEL (p / nc) (p mod nc) (q mod w) else 0;
    cb := fun p => - od o (p / nc)%nat (p mod nc)%nat |}.
End OCPSpec.
