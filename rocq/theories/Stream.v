(* Solve with the caller's own output stream (the third argument of Solve, fbstab_dense.h:136,
   fbstab_mpc.h:181), whose Print may throw.

   The messages go to os.Print inside the six Print routines only.  A stream is represented by
   [accepts]: [accepts l] says that Print returned normally for every message of the events l,
   in this order.  When a message is refused the exception leaves Solve at that point.  Messages
   of the event being printed that were taken before the refusal do not appear in the log
   (PropsMessages.v accounts for them).
   Everything else is the code of Algorithm.v and Shared.v. *)
From Verif Require Export Shared.
Local Open Scope res_scope.

Section Stream.
  Context {T D L : Type} (O : Ops T) (DI : DataI T D) (LS : LSI T D L).
  (* as in Shared.v: what the data object shows once the caller's vectors hold the argument *)
  Context (reload : var T -> D).
  Context (accepts : list (event T) -> bool).
  Local Open Scope m_scope.
  Notation MM := (M (ast T D L)).

  (* os.Print of the messages of one event, tools/output_stream.h:22-24 *)
  Definition emit (e : event T) : MM unit :=
    fun s => if accepts (a_log s ++ [e]) then log_event e s else (s, Throw EStream).

  (* PrintIterLine, impl.h:411-427 *)
  Definition PrintIterLine_on (itol : T) : MM unit :=
    fun s => (if is_iter (p_display (a_opts s))
              then emit (EvIterLine (a_prox s) (a_newton s)
                     (r_zn (fr_r (a_rk s))) (r_ln (fr_r (a_rk s))) (r_vn (fr_r (a_rk s)))
                     (rsd_norm O (fr_r (a_ri s))) itol)
              else mret tt) s.
  (* PrintIterHeader, impl.h:429-441 *)
  Definition PrintIterHeader_on : MM unit :=
    fun s => (if is_iter (p_display (a_opts s)) then emit EvIterHeader else mret tt) s.
  (* PrintDetailedHeader, impl.h:443-459 *)
  Definition PrintDetailedHeader_on : MM unit :=
    fun s => (if is_det (p_display (a_opts s))
              then emit (EvDetHeader (a_prox s) (a_newton s) (rsd_norm O (fr_r (a_rk s))))
              else mret tt) s.
  (* PrintDetailedLine, impl.h:461-472 *)
  Definition PrintDetailedLine_on (i : Z) (t : T) : MM unit :=
    fun s => (if is_det (p_display (a_opts s))
              then emit (EvDetLine i t (r_zn (fr_r (a_ri s))) (r_ln (fr_r (a_ri s)))
                                        (r_vn (fr_r (a_ri s))))
              else mret tt) s.
  (* PrintDetailedFooter, impl.h:474-489 *)
  Definition PrintDetailedFooter_on (tol : T) : MM unit :=
    fun s => (if is_det (p_display (a_opts s))
              then emit (EvDetFooter (rsd_norm O (fr_r (a_ri s))) tol)
              else mret tt) s.
  (* PrintFinal, impl.h:491-541; [t] in ms.  The default branch of the switch constructs
     (does not throw) a runtime_error; it is unreachable for the six flags. *)
  Definition PrintFinal_on (e : exit_flag) (ms : T) : MM unit :=
    fun s => (if ge_final (p_display (a_opts s))
              then emit (EvFinal e ms (a_prox s) (p_max_prox (a_opts s)) (a_newton s)
                                (p_max_newton (a_opts s))
                                (r_zn (fr_r (a_rk s))) (r_ln (fr_r (a_rk s)))
                                (r_vn (fr_r (a_rk s))) (a_combo s))
              else mret tt) s.

  (* PrepareOutput, impl.h:362-383; always called with rk_, prox_iters_, newton_iters_.
     The clock is the input [elapsed]. *)
  Definition PrepareOutput_on (e : exit_flag) (elapsed E0 : T) : MM (solver_out T) :=
    s <~ mget_ (fun s => s) ;;
    let out := mkOut e (rsd_norm O (fr_r (a_rk s))) (a_newton s) (a_prox s) elapsed E0 in
    PrintFinal_on e (o_mul O (o_dec O 1000 0) elapsed) ;~
    mret out.

  (* The inner loop, impl.h:237-301; [fuel] = max_inner_iters - i. *)
  Fixpoint inner_loop_on (fuel : nat) (i : Z) (t Eo tol sigma Ek : T) : MM T :=
    match fuel with
    | 0%nat => mret Eo
    | S fuel' =>
        s <~ mget_ (fun s => s) ;;
        ri_inner O DI (a_xi s) (a_xk s) sigma ;~
        rk_pnr O DI (a_xi s) ;~
        s <~ mget_ (fun s => s) ;;
        let Ei := rsd_norm O (fr_r (a_ri s)) in
        let Eo := rsd_norm O (fr_r (a_rk s)) in
        ghost_event (GInner (fv_x (a_xi s)) Ei Eo) ;~
        if (o_leb O Ei tol && o_ltb O Eo Ek) || o_leb O Ei (p_inner_tol_min (a_opts s))
        then PrintDetailedLine_on i t ;~ PrintDetailedFooter_on tol ;~ mret Eo
        else
          PrintDetailedLine_on i t ;~
          if (p_max_newton (a_opts s) <=? a_newton s)%Z then mret Eo
          else
            t <~ newton_step O DI LS sigma ;;
            inner_loop_on fuel' (i + 1)%Z t Eo tol sigma Ek
    end.

  (* SolveProximalSubproblem(xi_, xk_, tol, sigma, Ek), impl.h:227-304 *)
  Definition SolveProximalSubproblem_on (tol sigma Ek : T) : MM T :=
    mmod (set_merit (repeat (o_zero O) 5)) ;~
    s <~ mget_ (fun s => s) ;;
    Eo <~ inner_loop_on (Z.to_nat (p_max_inner (a_opts s))) 0%Z (o_one O) (o_zero O) tol sigma Ek ;;
    mmod (fun s => set_xi (fv_project O (a_xi s)) s) ;~
    s <~ mget_ (fun s => s) ;;
    ghost_event (GProject (fv_x (a_xi s))) ;~
    mret Eo.

  (* the main proximal loop, impl.h:158-223: Algorithm.prox_loop with WriteShared *)
  Fixpoint prox_loop_on (k : vkind) (elapsed sigma E0 : T) (fuel : nat) (inner_tol : T)
    : MM (solver_out T) :=
    match fuel with
    | 0%nat =>
        out <~ PrepareOutput_on MAXITERATIONS elapsed E0 ;;
        s <~ mget_ (fun s => s) ;;
        WriteShared LS reload k (a_xk s) ;~
        mret out
    | S fuel' =>
        s <~ mget_ (fun s => s) ;;
        rk_pnr O DI (a_xk s) ;~
        s <~ mget_ (fun s => s) ;;
        let Ek := rsd_norm O (fr_r (a_rk s)) in
        if o_leb O Ek (a_combo s) || o_leb O (fv_norm O (a_dx s)) (p_stall_tol (a_opts s))
        then
          PrintIterLine_on inner_tol ;~
          out <~ PrepareOutput_on SUCCESS elapsed E0 ;;
          WriteShared LS reload k (a_xk s) ;~
          mret out
        else
          PrintDetailedHeader_on ;~
          PrintIterLine_on inner_tol ;~
          itol <~ mlift (saturate O (o_mul O inner_tol (p_delta (a_opts s)))
                                    (p_inner_tol_min (a_opts s)) Ek) ;;
          mmod (set_xi (fv_copy (a_xk s) (a_xi s))) ;~
          ghost_event (GSub inner_tol itol Ek (fv_x (a_xk s))) ;~
          Eo <~ SolveProximalSubproblem_on itol sigma Ek ;;
          s <~ mget_ (fun s => s) ;;
          if (p_max_newton (a_opts s) <=? a_newton s)%Z
          then
            (* impl.h:188-198: the residual is evaluated after the write *)
            (if o_ltb O Eo Ek
             then WriteShared LS reload k (a_xi s) ;~ s <~ mget_ (fun s => s) ;; rk_pnr O DI (a_xi s)
             else WriteShared LS reload k (a_xk s) ;~ s <~ mget_ (fun s => s) ;; rk_pnr O DI (a_xk s)) ;~
            PrepareOutput_on MAXITERATIONS elapsed E0
          else
            let dx := fv_copy (a_xi s) (a_dx s) in
            dx <~ mlift (fv_axpy O DI (o_mone O) (a_xk s) dx) ;;
            mmod (set_dx dx) ;~
            ghost_event (GProx (fv_x dx)) ;~
            ef <~ (if p_check_feas (a_opts s) then CheckForInfeasibility O DI else mret SUCCESS) ;;
            match ef with
            | SUCCESS =>
                s <~ mget_ (fun s => s) ;;
                mmod (set_xk (fv_copy (a_xi s) (a_xk s))) ;~
                mmod (fun s => set_prox (a_prox s + 1)%Z s) ;~
                prox_loop_on k elapsed sigma E0 fuel' itol
            | _ =>
                out <~ PrepareOutput_on ef elapsed E0 ;;
                s <~ mget_ (fun s => s) ;;
                WriteShared LS reload k (a_dx s) ;~
                mret out
            end
    end.

  (* FBstabAlgorithm::Solve, impl.h:111-224: Algorithm.Solve with the loop above *)
  Definition Solve_on (d : D) (k : vkind) (elapsed : T) : MM (solver_out T) :=
    mmod (set_alphas LS) ;~
    mmod (link_all LS (PLive d)) ;~
    s <~ mget_ (fun s => s) ;;
    let sigma := p_sigma0 (a_opts s) in
    mmod (set_combo (combo_of O DI (a_opts s) d)) ;~
    CopyIntoVariable O DI ;~
    s <~ mget_ (fun s => s) ;;
    mmod (set_xi (fv_copy (a_xk s) (a_xi s))) ;~
    dx <~ mlift (fv_fill O DI (o_one O) (a_dx s)) ;;
    mmod (set_dx dx) ;~
    rk_pnr O DI (a_xk s) ;~
    s <~ mget_ (fun s => s) ;;
    mmod (set_ri (fr_fill (o_zero O) (a_ri s))) ;~
    let E0 := rsd_norm O (fr_r (a_rk s)) in
    inner_tol <~ mlift (saturate O E0 (p_inner_tol_min (a_opts s)) (p_inner_tol_max (a_opts s))) ;;
    mmod (set_newton 0%Z) ;~
    mmod (set_prox 0%Z) ;~
    PrintIterHeader_on ;~
    prox_loop_on k elapsed sigma E0 (Z.to_nat (p_max_prox (a_opts s))) inner_tol.

  (* as DenseModel.call_solve *)
  Definition call_on (s : ast T D L) (d : D) (k : vkind) (x : var T) (elapsed : T)
    : ast T D L * solve_result T :=
    let s0 := set_trace [] (set_log [] (set_caller x s)) in
    let '(s1, r) := Solve_on d k elapsed s0 in
    (link_all LS PDangling (set_trace [] (set_log [] (set_caller empty_var s1))),
     mkSR r (a_caller s1) (a_log s1) (a_trace s1)).
End Stream.

Section StreamApi.
  Context {T : Type} (O : Ops T) (LA : LinAlg T) (accepts : list (event T) -> bool).

  (* FBstabDense::Solve(qp, x, os), fbstab_dense.h:136-142, the data and the variables apart:
     DenseModel.FBstabDense_Solve with a stream *)
  Definition FBstabDense_SolveOn (s : dense_solver T) (qp : dense_qp T) (k : vkind) (x : var T)
             (elapsed : T) : dense_solver T * solve_result T :=
    match DenseData_ctor O (Some (q_H qp)) (Some (q_f qp)) (Some (q_G qp)) (Some (q_h qp))
                           (Some (q_A qp)) (Some (q_b qp)) with
    | Throw e => (s, mkSR (Throw e) x [] [])
    | UB u => (s, mkSR (UB u) x [] [])
    | Ok d =>
        match dense_validate s d x with
        | Throw e => (s, mkSR (Throw e) x [] [])
        | UB u => (s, mkSR (UB u) x [] [])
        | Ok _ =>
            let '(a, r) := call_on O (denseDI O) (denseLS O LA) (fun _ => d) accepts
                             (ds_alg s) d k x elapsed in
            (mkDS (ds_nz s) (ds_nl s) (ds_nv s) a, r)
        end
    end.

  (* FBstabMpc::Solve(qp, x, os), fbstab_mpc.h:181-188: Riccati.FBstabMpc_Solve with a stream *)
  Definition FBstabMpc_SolveOn (s : mpc_solver T) (qp : mpc_ref T) (k : vkind) (x : var T)
             (elapsed : T) : mpc_solver T * solve_result T :=
    match MpcData_ctor O qp with
    | Throw e => (s, mkSR (Throw e) x [] [])
    | UB u => (s, mkSR (UB u) x [] [])
    | Ok d =>
        match mpc_validate_inputs s d x with
        | Throw e => (s, mkSR (Throw e) x [] [])
        | UB u => (s, mkSR (UB u) x [] [])
        | Ok _ =>
            let '(a, r) := call_on O (mpcDI O) (mpcLS O LA) (fun _ => d) accepts
                             (mps_alg s) d k x elapsed in
            (mkMS (mps_N s) (mps_nx s) (mps_nu s) (mps_nc s) (mps_nz s) (mps_nl s) (mps_nv s) a, r)
        end
    end.

  (* FBstabDense::Solve with ProblemDataRef and VariableRef, fbstab_dense.h:136-142 *)
  Definition FBstabDense_SolveRefOn (s : dense_solver T) (m : memory T) (q : dense_view)
             (w : var_view) (elapsed : T) : dense_solver T * mem_result T :=
    let qp := load_dense m q in
    let x := load_var m w in
    match DenseData_ctor O (Some (q_H qp)) (Some (q_f qp)) (Some (q_G qp)) (Some (q_h qp))
                           (Some (q_A qp)) (Some (q_b qp)) with
    | Throw e => (s, mkMres (Throw e) m [] [])
    | UB u => (s, mkMres (UB u) m [] [])
    | Ok d =>
        match dense_validate s d x with
        | Throw e => (s, mkMres (Throw e) m [] [])
        | UB u => (s, mkMres (UB u) m [] [])
        | Ok _ =>
            let '(a, r) := call_on O (denseDI O) (denseLS O LA)
                             (fun y => reload_dense d q (store_var O m w y)) accepts
                             (ds_alg s) d Mapped x elapsed in
            (mkDS (ds_nz s) (ds_nl s) (ds_nv s) a,
             mkMres (sr_out r) (store_var O m w (sr_x r)) (sr_log r) (sr_trace r))
        end
    end.

  (* FBstabMpc::Solve with ProblemDataRef and VariableRef, fbstab_mpc.h:181-188 *)
  Definition FBstabMpc_SolveRefOn (s : mpc_solver T) (m : memory T) (q : mpc_view)
             (w : var_view) (elapsed : T) : mpc_solver T * mem_result T :=
    let x := load_var m w in
    match MpcData_ctor O (load_mpc m q) with
    | Throw e => (s, mkMres (Throw e) m [] [])
    | UB u => (s, mkMres (UB u) m [] [])
    | Ok d =>
        match mpc_validate_inputs s d x with
        | Throw e => (s, mkMres (Throw e) m [] [])
        | UB u => (s, mkMres (UB u) m [] [])
        | Ok _ =>
            let '(a, r) := call_on O (mpcDI O) (mpcLS O LA)
                             (fun y => reload_mpc d q (store_var O m w y)) accepts
                             (mps_alg s) d Mapped x elapsed in
            (mkMS (mps_N s) (mps_nx s) (mps_nu s) (mps_nc s) (mps_nz s) (mps_nl s) (mps_nv s) a,
             mkMres (sr_out r) (store_var O m w (sr_x r)) (sr_log r) (sr_trace r))
        end
    end.
End StreamApi.
