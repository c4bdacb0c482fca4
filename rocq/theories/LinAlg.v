(* Eigen's dense factorisations as an oracle.  Each function is a deterministic function of the
   matrix entries it reads: LLT and LDLT read the lower triangle only (the caller passes
   [symlow K]); triangular solves read the lower triangle of the factor. *)
From Verif Require Export Algorithm.

Record LinAlg (T : Type) : Type := mkLinAlg {
  la_llt : mat T -> option (mat T);          (* Eigen::LLT in place: None = info() != Success *)
  la_ldlt_ok : mat T -> bool;                (* Eigen::LDLT::info() == Success *)
  la_ldlt_solve : mat T -> vec T -> vec T;   (* Eigen::LDLT::solve *)
  la_lsolve : mat T -> vec T -> vec T;       (* triangularView<Lower>().solveInPlace(b) *)
  la_ltsolve : mat T -> vec T -> vec T       (* triangularView<Lower>().transpose().solveInPlace(b) *)
}.
Arguments mkLinAlg {T}. Arguments la_llt {T}. Arguments la_ldlt_ok {T}.
Arguments la_ldlt_solve {T}. Arguments la_lsolve {T}. Arguments la_ltsolve {T}.

Section Derived.
  Context {T : Type} (O : Ops T) (LA : LinAlg T).

  (* the lower triangle, upper part zero: what a triangular view of M reads *)
  Definition lowpart (M : mat T) : mat T :=
    mtab (mr M) (mc M) (fun i j => if j <=? i then mget O M i j else o_zero O).

  (* M.triangularView<Lower>().solveInPlace(B), column by column *)
  Definition lsolve_mat (M B : mat T) : mat T :=
    let cols := tab (mc B) (fun j => la_lsolve LA (lowpart M) (mcol O B j)) in
    mtab (mr B) (mc B) (fun i j => vget O (nth j cols []) i).
  Definition ltsolve_mat (M B : mat T) : mat T :=
    let cols := tab (mc B) (fun j => la_ltsolve LA (lowpart M) (mcol O B j)) in
    mtab (mr B) (mc B) (fun i j => vget O (nth j cols []) i).
  (* M.triangularView<Lower>().transpose().solveInPlace<OnTheRight>(B): B <- B * inv(M').
     Row i of the result x satisfies x*M' = b, i.e. M*x' = b': a forward substitution. *)
  Definition rsolve_mat (M B : mat T) : mat T :=
    let rows := tab (mr B) (fun i => la_lsolve LA (lowpart M) (mrow O B i)) in
    mtab (mr B) (mc B) (fun i j => vget O (nth i rows []) j).
  (* the same on a vector, in place (so the length is that of b) *)
  Definition lsolve_vec (M : mat T) (b : vec T) : vec T :=
    let x := la_lsolve LA (lowpart M) b in tab (length b) (vget O x).
  Definition ltsolve_vec (M : mat T) (b : vec T) : vec T :=
    let x := la_ltsolve LA (lowpart M) b in tab (length b) (vget O x).
End Derived.

(* PFBGradient, dense_cholesky_solver.cc:129-148 and riccati_linear_solver.cc:346-365
   (identical); zero_tolerance_ = 1e-13 (dense_cholesky_solver.h, riccati_linear_solver.h). *)
Section PFB.
  Context {T : Type} (O : Ops T).
  Infix "+" := (o_add O). Infix "-" := (o_sub O). Infix "*" := (o_mul O). Infix "/" := (o_div O).
  Definition zero_tolerance : T := o_dec O 1 (-13).
  Definition PFBGradient (alpha a b : T) : T * T :=
    let r := o_sqrt O (a * a + b * b) in
    let d := o_one O / o_sqrt O (o_two O) in
    if o_ltb O r zero_tolerance then (alpha * (o_one O - d), alpha * (o_one O - d))
    else if o_ltb O (o_zero O) a && o_ltb O (o_zero O) b then
      (alpha * (o_one O - a / r) + (o_one O - alpha) * b,
       alpha * (o_one O - b / r) + (o_one O - alpha) * a)
    else (alpha * (o_one O - a / r), alpha * (o_one O - b / r)).

  (* the weights gamma_, mus_, Gamma_: dense_cholesky_solver.cc:54-60,
     riccati_linear_solver.cc:92-99 *)
  Definition pfb_ys (x xbar : var T) (sigma : T) (i : nat) : T :=
    vget O (v_y x) i + sigma * (vget O (v_v x) i - vget O (v_v xbar) i).
  Definition w_gamma (alpha sigma : T) (x xbar : var T) (nv : nat) : vec T :=
    tab nv (fun i => fst (PFBGradient alpha (pfb_ys x xbar sigma i) (vget O (v_v x) i))).
  Definition w_mus (alpha sigma : T) (x xbar : var T) (nv : nat) : vec T :=
    tab nv (fun i => let g := PFBGradient alpha (pfb_ys x xbar sigma i) (vget O (v_v x) i) in
                     snd g + sigma * fst g).
  Definition w_Gamma (gamma mus : vec T) : vec T := vquot O gamma mus.
End PFB.
