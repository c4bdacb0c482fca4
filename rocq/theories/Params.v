(* tools::saturate and AlgorithmParameters. *)
From Verif Require Export Vec.

(* fbstab_algorithm.h:17-24 *)
Inductive exit_flag : Type :=
| SUCCESS | DIVERGENCE | MAXITERATIONS | PRIMAL_INFEASIBLE | DUAL_INFEASIBLE
| PRIMAL_DUAL_INFEASIBLE.

(* fbstab_algorithm.h:40-45 *)
Inductive display : Type := OFF | FINAL | ITER | ITER_DETAILED.

Definition display_rank (d : display) : Z :=
  match d with OFF => 0 | FINAL => 1 | ITER => 2 | ITER_DETAILED => 3 end.

(* fbstab_algorithm.h:48-82 *)
Record params (T : Type) : Type := mkParams {
  p_sigma0 : T; p_sigma_max : T; p_sigma_min : T;
  p_alpha : T; p_beta : T; p_eta : T; p_delta : T; p_gamma : T;
  p_abs_tol : T; p_rel_tol : T; p_stall_tol : T; p_infeas_tol : T;
  p_inner_tol_max : T; p_inner_tol_min : T;
  p_max_newton : Z; p_max_prox : Z; p_max_inner : Z; p_max_ls : Z;
  p_check_feas : bool; p_nonmonotone : bool; p_display : display
}.
Arguments mkParams {T}.
Arguments p_sigma0 {T}. Arguments p_sigma_max {T}. Arguments p_sigma_min {T}.
Arguments p_alpha {T}. Arguments p_beta {T}. Arguments p_eta {T}. Arguments p_delta {T}.
Arguments p_gamma {T}. Arguments p_abs_tol {T}. Arguments p_rel_tol {T}.
Arguments p_stall_tol {T}. Arguments p_infeas_tol {T}. Arguments p_inner_tol_max {T}.
Arguments p_inner_tol_min {T}. Arguments p_max_newton {T}. Arguments p_max_prox {T}.
Arguments p_max_inner {T}. Arguments p_max_ls {T}. Arguments p_check_feas {T}.
Arguments p_nonmonotone {T}. Arguments p_display {T}.

Section Params.
  Context {T : Type} (O : Ops T).
  Local Open Scope Z_scope.
  Local Open Scope res_scope.

  Notation lit := (o_dec O).

  (* tools/utilities.h:19-28 *)
  Definition saturate (x a b : T) : res T :=
    if o_ltb O b a then Throw ESaturate
    else Ok (smax O (smin O x b) a).

  (* The in-class initialisers, i.e. the value of a default-constructed Options struct.
     fbstab_algorithm.h:48-74.  1.0/5.0 and 1.0/10.0 are evaluated as divisions. *)
  Definition struct_defaults : params T :=
    mkParams (lit 1 (-8)) (lit 1 (-8)) (lit 1 (-10))
             (lit 95 (-2)) (lit 7 (-1)) (lit 1 (-8))
             (o_div O (o_one O) (lit 5 0)) (o_div O (o_one O) (lit 10 0))
             (lit 1 (-6)) (lit 1 (-12)) (lit 1 (-10)) (lit 1 (-8))
             (lit 1 (-1)) (lit 1 (-12))
             500 100 100 20
             true true FINAL.

  (* AlgorithmParameters::DefaultParameters, fbstab_algorithm-impl.h:33-59 (assigns every field,
     so the previous content is irrelevant). *)
  Definition DefaultParameters : params T :=
    mkParams (lit 1 (-8)) (lit 1 (-6)) (lit 1 (-12))
             (lit 95 (-2)) (lit 75 (-2)) (lit 1 (-8)) (lit 2 (-1)) (lit 1 (-1))
             (lit 1 (-6)) (lit 1 (-12)) (lit 1 (-10)) (lit 1 (-8))
             (lit 1 (-2)) (lit 1 (-12))
             200 30 50 20
             true true FINAL.

  (* AlgorithmParameters::ReliableParameters, fbstab_algorithm-impl.h:61-74 *)
  Definition ReliableParameters : params T :=
    mkParams (lit 1 (-4)) (lit 1 (-2)) (lit 1 (-10))
             (lit 95 (-2)) (lit 9 (-1)) (lit 1 (-8)) (lit 2 (-1)) (lit 1 (-1))
             (lit 1 (-4)) (lit 1 (-6)) (lit 1 (-10)) (lit 1 (-8))
             (lit 1 (-2)) (lit 1 (-12))
             500 100 50 40
             true false FINAL.

  (* AlgorithmParameters::ValidateOptions, fbstab_algorithm-impl.h:7-31, in program order. *)
  Definition ValidateOptions (o : params T) : res (params T) :=
    let sigma0 := smax O (p_sigma0 o) (lit 1 (-10)) in
    sigma_max <- saturate (p_sigma_max o) (lit 1 (-6)) (lit 1 2) ;;
    sigma_min <- saturate (p_sigma_min o) (lit 1 (-13)) (lit 1 (-8)) ;;
    sigma0 <- saturate sigma0 sigma_min sigma_max ;;
    alpha <- saturate (p_alpha o) (lit 1 (-3)) (lit 999 (-3)) ;;
    beta <- saturate (p_beta o) (lit 1 (-1)) (lit 99 (-2)) ;;
    eta <- saturate (p_eta o) (lit 1 (-12)) (lit 499 (-3)) ;;
    delta <- saturate (p_delta o) (lit 1 (-4)) (lit 99 (-2)) ;;
    gamma <- saturate (p_gamma o) (lit 1 (-3)) (lit 9 (-1)) ;;
    let abs_tol := smax O (p_abs_tol o) (lit 1 (-14)) in
    let rel_tol := smax O (p_rel_tol o) (o_zero O) in
    let stall_tol := smax O (p_stall_tol o) (lit 1 (-14)) in
    let infeas_tol := smax O (p_infeas_tol o) (lit 1 (-14)) in
    inner_tol_max <- saturate (p_inner_tol_max o) (lit 1 (-8)) (lit 1 2) ;;
    inner_tol_min <- saturate (p_inner_tol_min o) (lit 1 (-14)) (lit 1 (-2)) ;;
    Ok (mkParams sigma0 sigma_max sigma_min alpha beta eta delta gamma
                 abs_tol rel_tol stall_tol infeas_tol inner_tol_max inner_tol_min
                 (Z.max (p_max_newton o) 1) (Z.max (p_max_prox o) 1)
                 (Z.max (p_max_inner o) 1) (Z.max (p_max_ls o) 1)
                 (p_check_feas o) (p_nonmonotone o) (p_display o)).

  (* FBstabAlgorithm::UpdateParameters, fbstab_algorithm-impl.h:307-332: copies every field of
     [options] into [opts_] (whose old value [cur] is therefore irrelevant) and validates.
     On an exception the C++ leaves [opts_] partially validated; [update_never_throws]
     (ParamsProofs.v) shows that path does not exist. *)
  Definition UpdateParameters (cur options : params T) : res (params T) :=
    ValidateOptions
      (mkParams (p_sigma0 options) (p_sigma_max options) (p_sigma_min options)
                (p_alpha options) (p_beta options) (p_eta options) (p_delta options)
                (p_gamma options) (p_abs_tol options) (p_rel_tol options)
                (p_stall_tol options) (p_infeas_tol options)
                (p_inner_tol_max options) (p_inner_tol_min options)
                (p_max_newton options) (p_max_prox options)
                (p_max_inner options) (p_max_ls options)
                (p_check_feas options) (p_nonmonotone options) (p_display options)).
End Params.
