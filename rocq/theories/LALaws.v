(* What the proofs about the Newton steps assume of Eigen's factorisations over the reals
   (exact arithmetic).  [LAInstOk.v] shows that the textbook algorithms of [LinAlgInst.v]
   satisfy these laws, so the assumptions are consistent. *)
From Verif Require Export RSum LinAlg.
Local Open Scope R_scope.

Definition symmetric (n : nat) (K : nat -> nat -> R) : Prop :=
  forall i j, (i < n)%nat -> (j < n)%nat -> K i j = K j i.
Definition qform (n : nat) (K : nat -> nat -> R) (x : nat -> R) : R :=
  rsum n (fun i => rsum n (fun j => x i * K i j * x j)).
Definition posdef (n : nat) (K : nat -> nat -> R) : Prop :=
  forall x, (exists i, (i < n)%nat /\ x i <> 0) -> 0 < qform n K x.
Definition nonsingular (n : nat) (K : nat -> nat -> R) : Prop :=
  forall x, (forall i, (i < n)%nat -> rsum n (fun j => K i j * x j) = 0) ->
            forall i, (i < n)%nat -> x i = 0.
(* [E, G'; G, -sigma I] with E positive definite *)
Definition quasidef (n p : nat) (K : nat -> nat -> R) : Prop :=
  symmetric (n + p) K /\ posdef n K /\
  exists sigma, 0 < sigma /\ forall i j, (i < p)%nat -> (j < p)%nat ->
    K (n + i)%nat (n + j)%nat = if Nat.eqb i j then - sigma else 0.

Record LALaws (LA : LinAlg R) : Prop := {
  (* Eigen::LLT: on success K = L L' (lower triangle), L has a positive diagonal *)
  ll_llt_sound : forall K L n, mr K = n -> mc K = n -> la_llt LA K = Some L ->
    mr L = n /\ mc L = n /\ (forall i, (i < n)%nat -> 0 < rm L i i) /\
    (forall i j, (j <= i)%nat -> (i < n)%nat -> rsum (S j) (fun k => rm L i k * rm L j k) = rm K i j);
  (* it succeeds on positive definite matrices *)
  ll_llt_complete : forall K n, mr K = n -> mc K = n -> symmetric n (rm K) -> posdef n (rm K) ->
    la_llt LA K <> None;
  (* triangular solves *)
  ll_lsolve : forall M b n, mr M = n -> mc M = n -> length b = n ->
    (forall i, (i < n)%nat -> rm M i i <> 0) ->
    length (la_lsolve LA M b) = n /\
    forall i, (i < n)%nat -> rsum (S i) (fun j => rm M i j * rg (la_lsolve LA M b) j) = rg b i;
  ll_ltsolve : forall M b n, mr M = n -> mc M = n -> length b = n ->
    (forall i, (i < n)%nat -> rm M i i <> 0) ->
    length (la_ltsolve LA M b) = n /\
    forall i, (i < n)%nat ->
      rsum n (fun j => if Nat.leb i j then rm M j i * rg (la_ltsolve LA M b) j else 0) = rg b i;
  (* Eigen::LDLT *)
  ll_ldlt_sound : forall K b n, mr K = n -> mc K = n -> length b = n -> symmetric n (rm K) ->
    nonsingular n (rm K) -> la_ldlt_ok LA K = true ->
    length (la_ldlt_solve LA K b) = n /\
    forall i, (i < n)%nat -> rsum n (fun j => rm K i j * rg (la_ldlt_solve LA K b) j) = rg b i;
  ll_ldlt_complete : forall K n p, mr K = (n + p)%nat -> mc K = (n + p)%nat -> quasidef n p (rm K) ->
    la_ldlt_ok LA K = true }.
