(* FBstabAlgorithm (fbstab_algorithm.h, fbstab_algorithm-impl.h), generic in the data class and
   the linear solver, as the C++ template is (Variable, Residual and Feasibility are always
   FullVariable, FullResidual and FullFeasibility: fbstab_dense.cc:109, fbstab_mpc.cc:113). *)
From Verif Require Export Components.

(* The methods of the LinearSolver template argument (abstract_components.h:292-338).
   [ls_init]/[ls_solve] model Initialize/Solve.  Solve is const; its mutable
   workspaces are fully overwritten before use and are not part of [L]. *)
Record LSI (T D L : Type) : Type := mkLSI {
  ls_setalpha : T -> L -> L;
  ls_link : dptr D -> L -> L;
  ls_init : L -> fvar T D -> fvar T D -> T -> L * res bool;
  ls_solve : L -> fres T D -> fvar T D -> res (bool * fvar T D)
}.
Arguments mkLSI {T D L}. Arguments ls_setalpha {T D L}. Arguments ls_link {T D L}.
Arguments ls_init {T D L}. Arguments ls_solve {T D L}.

(* SolverOut, fbstab_algorithm.h:30-37 *)
Record solver_out (T : Type) : Type := mkOut {
  so_eflag : exit_flag; so_residual : T; so_newton : Z; so_prox : Z;
  so_time : T; so_initial : T }.
Arguments mkOut {T}. Arguments so_eflag {T}. Arguments so_residual {T}. Arguments so_newton {T}.
Arguments so_prox {T}. Arguments so_time {T}. Arguments so_initial {T}.

(* What is printed: one event per Print* routine, carrying the printed values
   (Text.v gives the text). *)
Inductive event (T : Type) : Type :=
| EvIterHeader                                          (* impl.h:429-441 *)
| EvIterLine (prox newton : Z) (rz rl rv ri itol : T)   (* impl.h:411-427 *)
| EvDetHeader (prox newton : Z) (r : T)                 (* impl.h:443-459 *)
| EvDetLine (i : Z) (t rz rl rv : T)                    (* impl.h:461-472 *)
| EvDetFooter (ri tol : T)                              (* impl.h:474-489 *)
| EvFinal (e : exit_flag) (ms : T) (prox maxprox newton maxnewton : Z)
          (rz rl rv combo : T).                         (* impl.h:491-541 *)
Arguments EvIterHeader {T}. Arguments EvIterLine {T}. Arguments EvDetHeader {T}.
Arguments EvDetLine {T}. Arguments EvDetFooter {T}. Arguments EvFinal {T}.

(* Ghost trace: not in the C++; records what happened for the properties that speak about
   the iterations.  It is never read by the model. *)
Inductive ghost (T : Type) : Type :=
| GSub (prev tol Ek : T) (xbar : var T)     (* a subproblem starts with tolerance tol; prev is
                                               the preceding tolerance, Ek the outer residual *)
| GInner (x : var T) (Ei Eo : T)            (* an inner iteration examined x *)
| GLin (x xbar : var T)                     (* a Newton system was factored and solved *)
| GMerit (xp : var T) (mp : T)              (* a line-search merit evaluation *)
| GStep (x dx : var T) (cm m0 t : T) (j : nat) (accepted : bool) (x' : var T)
| GProject (x : var T)                      (* subproblem left with x (after projection) *)
| GProx (dx : var T).                       (* proximal step dx = x(k+1) - x(k) *)
Arguments GSub {T}. Arguments GInner {T}. Arguments GLin {T}. Arguments GMerit {T}.
Arguments GStep {T}. Arguments GProject {T}. Arguments GProx {T}.

(* The members of FBstabAlgorithm (fbstab_algorithm.h:149-181) with the objects its pointers
   refer to, the caller's vectors, and the log. *)
Record ast (T D L : Type) : Type := mkAst {
  a_opts : params T  (* opts_ *);
  a_combo : T  (* combo_tol_ *);
  a_newton : Z  (* newton_iters_ *);
  a_prox : Z  (* prox_iters_ *);
  a_xk : fvar T D  (* xk_ *);
  a_xi : fvar T D  (* xi_ *);
  a_xp : fvar T D  (* xp_ *);
  a_dx : fvar T D  (* dx_ *);
  a_rk : fres T D  (* rk_ *);
  a_ri : fres T D  (* ri_ *);
  a_ls : L  (* ls_ *);
  a_ff : ffeas T D  (* ff_ *);
  a_merit : list T  (* merit_buffer_, most recent first *);
  a_caller : var T  (* the caller's *z0, *l0, *v0, *y0 *);
  a_log : list (event T)  (* printed so far *);
  a_trace : list (ghost T)  (* ghost *)
}.
Arguments mkAst {T D L}.
Arguments a_opts {T D L}.
Arguments a_combo {T D L}.
Arguments a_newton {T D L}.
Arguments a_prox {T D L}.
Arguments a_xk {T D L}.
Arguments a_xi {T D L}.
Arguments a_xp {T D L}.
Arguments a_dx {T D L}.
Arguments a_rk {T D L}.
Arguments a_ri {T D L}.
Arguments a_ls {T D L}.
Arguments a_ff {T D L}.
Arguments a_merit {T D L}.
Arguments a_caller {T D L}.
Arguments a_log {T D L}.
Arguments a_trace {T D L}.
Definition set_opts {T D L} (x : params T) (s : ast T D L) : ast T D L :=
  mkAst x (a_combo s) (a_newton s) (a_prox s) (a_xk s) (a_xi s) (a_xp s) (a_dx s) (a_rk s) (a_ri s) (a_ls s) (a_ff s) (a_merit s) (a_caller s) (a_log s) (a_trace s).
Definition set_combo {T D L} (x : T) (s : ast T D L) : ast T D L :=
  mkAst (a_opts s) x (a_newton s) (a_prox s) (a_xk s) (a_xi s) (a_xp s) (a_dx s) (a_rk s) (a_ri s) (a_ls s) (a_ff s) (a_merit s) (a_caller s) (a_log s) (a_trace s).
Definition set_newton {T D L} (x : Z) (s : ast T D L) : ast T D L :=
  mkAst (a_opts s) (a_combo s) x (a_prox s) (a_xk s) (a_xi s) (a_xp s) (a_dx s) (a_rk s) (a_ri s) (a_ls s) (a_ff s) (a_merit s) (a_caller s) (a_log s) (a_trace s).
Definition set_prox {T D L} (x : Z) (s : ast T D L) : ast T D L :=
  mkAst (a_opts s) (a_combo s) (a_newton s) x (a_xk s) (a_xi s) (a_xp s) (a_dx s) (a_rk s) (a_ri s) (a_ls s) (a_ff s) (a_merit s) (a_caller s) (a_log s) (a_trace s).
Definition set_xk {T D L} (x : fvar T D) (s : ast T D L) : ast T D L :=
  mkAst (a_opts s) (a_combo s) (a_newton s) (a_prox s) x (a_xi s) (a_xp s) (a_dx s) (a_rk s) (a_ri s) (a_ls s) (a_ff s) (a_merit s) (a_caller s) (a_log s) (a_trace s).
Definition set_xi {T D L} (x : fvar T D) (s : ast T D L) : ast T D L :=
  mkAst (a_opts s) (a_combo s) (a_newton s) (a_prox s) (a_xk s) x (a_xp s) (a_dx s) (a_rk s) (a_ri s) (a_ls s) (a_ff s) (a_merit s) (a_caller s) (a_log s) (a_trace s).
Definition set_xp {T D L} (x : fvar T D) (s : ast T D L) : ast T D L :=
  mkAst (a_opts s) (a_combo s) (a_newton s) (a_prox s) (a_xk s) (a_xi s) x (a_dx s) (a_rk s) (a_ri s) (a_ls s) (a_ff s) (a_merit s) (a_caller s) (a_log s) (a_trace s).
Definition set_dx {T D L} (x : fvar T D) (s : ast T D L) : ast T D L :=
  mkAst (a_opts s) (a_combo s) (a_newton s) (a_prox s) (a_xk s) (a_xi s) (a_xp s) x (a_rk s) (a_ri s) (a_ls s) (a_ff s) (a_merit s) (a_caller s) (a_log s) (a_trace s).
Definition set_rk {T D L} (x : fres T D) (s : ast T D L) : ast T D L :=
  mkAst (a_opts s) (a_combo s) (a_newton s) (a_prox s) (a_xk s) (a_xi s) (a_xp s) (a_dx s) x (a_ri s) (a_ls s) (a_ff s) (a_merit s) (a_caller s) (a_log s) (a_trace s).
Definition set_ri {T D L} (x : fres T D) (s : ast T D L) : ast T D L :=
  mkAst (a_opts s) (a_combo s) (a_newton s) (a_prox s) (a_xk s) (a_xi s) (a_xp s) (a_dx s) (a_rk s) x (a_ls s) (a_ff s) (a_merit s) (a_caller s) (a_log s) (a_trace s).
Definition set_ls {T D L} (x : L) (s : ast T D L) : ast T D L :=
  mkAst (a_opts s) (a_combo s) (a_newton s) (a_prox s) (a_xk s) (a_xi s) (a_xp s) (a_dx s) (a_rk s) (a_ri s) x (a_ff s) (a_merit s) (a_caller s) (a_log s) (a_trace s).
Definition set_ff {T D L} (x : ffeas T D) (s : ast T D L) : ast T D L :=
  mkAst (a_opts s) (a_combo s) (a_newton s) (a_prox s) (a_xk s) (a_xi s) (a_xp s) (a_dx s) (a_rk s) (a_ri s) (a_ls s) x (a_merit s) (a_caller s) (a_log s) (a_trace s).
Definition set_merit {T D L} (x : list T) (s : ast T D L) : ast T D L :=
  mkAst (a_opts s) (a_combo s) (a_newton s) (a_prox s) (a_xk s) (a_xi s) (a_xp s) (a_dx s) (a_rk s) (a_ri s) (a_ls s) (a_ff s) x (a_caller s) (a_log s) (a_trace s).
Definition set_caller {T D L} (x : var T) (s : ast T D L) : ast T D L :=
  mkAst (a_opts s) (a_combo s) (a_newton s) (a_prox s) (a_xk s) (a_xi s) (a_xp s) (a_dx s) (a_rk s) (a_ri s) (a_ls s) (a_ff s) (a_merit s) x (a_log s) (a_trace s).
Definition set_log {T D L} (x : list (event T)) (s : ast T D L) : ast T D L :=
  mkAst (a_opts s) (a_combo s) (a_newton s) (a_prox s) (a_xk s) (a_xi s) (a_xp s) (a_dx s) (a_rk s) (a_ri s) (a_ls s) (a_ff s) (a_merit s) (a_caller s) x (a_trace s).
Definition set_trace {T D L} (x : list (ghost T)) (s : ast T D L) : ast T D L :=
  mkAst (a_opts s) (a_combo s) (a_newton s) (a_prox s) (a_xk s) (a_xi s) (a_xp s) (a_dx s) (a_rk s) (a_ri s) (a_ls s) (a_ff s) (a_merit s) (a_caller s) (a_log s) x.

(* The caller's vectors: VectorXd (resized on assignment) or Eigen::Map (not resizable). *)
Inductive vkind : Type := Owned | Mapped.

Section Algorithm.
  Context {T D L : Type} (O : Ops T) (DI : DataI T D) (LS : LSI T D L).
  Local Open Scope m_scope.
  Notation MM := (M (ast T D L)).

  Definition log_event (e : event T) : MM unit :=
    mmod (fun s => set_log (a_log s ++ [e]) s).
  Definition ghost_event (g : ghost T) : MM unit :=
    mmod (fun s => set_trace (a_trace s ++ [g]) s).

  Definition is_iter (d : display) : bool := match d with ITER => true | _ => false end.
  Definition is_det (d : display) : bool := match d with ITER_DETAILED => true | _ => false end.
  Definition ge_final (d : display) : bool := (display_rank FINAL <=? display_rank d)%Z.

  (* ---- printing: each routine tests display_level ---- *)
  (* PrintIterLine, impl.h:411-427 *)
  Definition PrintIterLine (itol : T) : MM unit :=
    fun s => (if is_iter (p_display (a_opts s))
              then log_event (EvIterLine (a_prox s) (a_newton s)
                     (r_zn (fr_r (a_rk s))) (r_ln (fr_r (a_rk s))) (r_vn (fr_r (a_rk s)))
                     (rsd_norm O (fr_r (a_ri s))) itol)
              else mret tt) s.
  (* PrintIterHeader, impl.h:429-441 *)
  Definition PrintIterHeader : MM unit :=
    fun s => (if is_iter (p_display (a_opts s)) then log_event EvIterHeader else mret tt) s.
  (* PrintDetailedHeader, impl.h:443-459 *)
  Definition PrintDetailedHeader : MM unit :=
    fun s => (if is_det (p_display (a_opts s))
              then log_event (EvDetHeader (a_prox s) (a_newton s) (rsd_norm O (fr_r (a_rk s))))
              else mret tt) s.
  (* PrintDetailedLine, impl.h:461-472 *)
  Definition PrintDetailedLine (i : Z) (t : T) : MM unit :=
    fun s => (if is_det (p_display (a_opts s))
              then log_event (EvDetLine i t (r_zn (fr_r (a_ri s))) (r_ln (fr_r (a_ri s)))
                                        (r_vn (fr_r (a_ri s))))
              else mret tt) s.
  (* PrintDetailedFooter, impl.h:474-489 *)
  Definition PrintDetailedFooter (tol : T) : MM unit :=
    fun s => (if is_det (p_display (a_opts s))
              then log_event (EvDetFooter (rsd_norm O (fr_r (a_ri s))) tol)
              else mret tt) s.
  (* PrintFinal, impl.h:491-541; [t] in ms.  The default branch of the switch constructs
     (does not throw) a runtime_error; it is unreachable for the six flags. *)
  Definition PrintFinal (e : exit_flag) (ms : T) : MM unit :=
    fun s => (if ge_final (p_display (a_opts s))
              then log_event (EvFinal e ms (a_prox s) (p_max_prox (a_opts s)) (a_newton s)
                                (p_max_newton (a_opts s))
                                (r_zn (fr_r (a_rk s))) (r_ln (fr_r (a_rk s)))
                                (r_vn (fr_r (a_rk s))) (a_combo s))
              else mret tt) s.

  (* PrepareOutput, impl.h:362-383; always called with rk_, prox_iters_, newton_iters_.
     The clock is the input [elapsed]. *)
  Definition PrepareOutput (e : exit_flag) (elapsed E0 : T) : MM (solver_out T) :=
    s <~ mget_ (fun s => s) ;;
    let out := mkOut e (rsd_norm O (fr_r (a_rk s))) (a_newton s) (a_prox s) elapsed E0 in
    PrintFinal e (o_mul O (o_dec O 1000 0) elapsed) ;~
    mret out.

  (* CopyIntoVariable, impl.h:334-347, into xk_ (assignment resizes; y is recomputed) *)
  Definition CopyIntoVariable : MM unit :=
    s <~ mget_ (fun s => s) ;;
    let c := a_caller s in
    let xk := a_xk s in
    xk' <~ mlift (fv_margin O DI
             (fv_set xk (mkVar (v_z c) (v_l c) (v_v c) (v_y (fv_x xk))))) ;;
    mmod (set_xk xk').

  (* assignment of one caller vector: VectorXd resizes, Map must match *)
  Definition assign_vec (k : vkind) (old new : vec T) : res (vec T) :=
    match k with
    | Owned => Ok new
    | Mapped => if (length old =? length new)%nat then Ok new else UB UBSize
    end.
  (* WriteVariable, impl.h:349-360 *)
  Definition WriteVariable (k : vkind) (x : fvar T D) : MM unit :=
    s <~ mget_ (fun s => s) ;;
    let c := a_caller s in let w := fv_x x in
    z <~ mlift (assign_vec k (v_z c) (v_z w)) ;;
    l <~ mlift (assign_vec k (v_l c) (v_l w)) ;;
    v <~ mlift (assign_vec k (v_v c) (v_v w)) ;;
    y <~ mlift (assign_vec k (v_y c) (v_y w)) ;;
    mmod (set_caller (mkVar z l v y)).

  (* InsertMerit, impl.h:402-409 (array of kNonMonotoneLineSearch = 5) *)
  Definition InsertMerit (x : T) (buf : list T) : list T := x :: firstn 4 buf.
  (* MaxMerit, fbstab_algorithm.h:242-244: std::max_element *)
  Fixpoint max_element (acc : T) (buf : list T) : T :=
    match buf with
    | [] => acc
    | b :: buf' => max_element (if o_ltb O acc b then b else acc) buf'
    end.
  Definition MaxMerit (buf : list T) : T :=
    match buf with [] => o_zero O | b :: buf' => max_element b buf' end.

  (* residual evaluations on member objects *)
  Definition rk_pnr (x : fvar T D) : MM unit :=
    s <~ mget_ (fun s => s) ;;
    r <~ mlift (fr_pnr O DI x (a_rk s)) ;;
    mmod (set_rk r).
  Definition ri_inner (x xbar : fvar T D) (sigma : T) : MM unit :=
    s <~ mget_ (fun s => s) ;;
    r <~ mlift (fr_inner O DI x xbar sigma (a_ri s)) ;;
    mmod (set_ri r).

  (* The line-search loop, impl.h:283-298.  [fuel] counts the remaining iterations
     (max_linesearch_iters - j).  Returns t, j and whether the Armijo test passed. *)
  Fixpoint linesearch (fuel j : nat) (t m0 cm sigma : T) : MM (T * nat * bool) :=
    match fuel with
    | 0%nat => mret (t, j, false)
    | S fuel' =>
        s <~ mget_ (fun s => s) ;;
        let xp := fv_copy (a_xi s) (a_xp s) in
        mmod (set_xp xp) ;~
        xp <~ mlift (fv_axpy O DI t (a_dx s) xp) ;;
        mmod (set_xp xp) ;~
        ri_inner xp (a_xk s) sigma ;~
        s <~ mget_ (fun s => s) ;;
        let mp := rsd_merit O (fr_r (a_ri s)) in
        ghost_event (GMerit (fv_x xp) mp) ;~
        if o_leb O mp (o_sub O m0 (o_mul O (o_mul O (o_mul O (o_two O) t) (p_eta (a_opts s))) cm))
        then mret (t, j, true)
        else linesearch fuel' (S j) (o_mul O t (p_beta (a_opts s))) m0 cm sigma
    end.

  (* One Newton step, impl.h:258-300 *)
  Definition newton_step (sigma : T) : MM T :=
    s <~ mget_ (fun s => s) ;;
    let '(ls', rb) := ls_init LS (a_ls s) (a_xi s) (a_xk s) sigma in
    mmod (set_ls ls') ;~
    b <~ mlift rb ;;
    mlift (throw_unless b EInitFailed) ;~
    s <~ mget_ (fun s => s) ;;
    mmod (set_ri (fr_neg O (a_ri s))) ;~
    s <~ mget_ (fun s => s) ;;
    bx <~ mlift (ls_solve LS (a_ls s) (a_ri s) (a_dx s)) ;;
    mmod (set_dx (snd bx)) ;~
    mlift (throw_unless (fst bx) ESolveFailed) ;~
    ghost_event (GLin (fv_x (a_xi s)) (fv_x (a_xk s))) ;~
    mmod (fun s => set_newton (a_newton s + 1)%Z s) ;~
    s <~ mget_ (fun s => s) ;;
    let cm := rsd_merit O (fr_r (a_ri s)) in
    mmod (set_merit (InsertMerit cm (a_merit s))) ;~
    s <~ mget_ (fun s => s) ;;
    let m0 := if p_nonmonotone (a_opts s) then MaxMerit (a_merit s) else cm in
    tj <~ linesearch (Z.to_nat (p_max_ls (a_opts s))) 0 (o_one O) m0 cm sigma ;;
    let '(t, j, acc) := tj in
    s <~ mget_ (fun s => s) ;;
    x' <~ mlift (fv_axpy O DI t (a_dx s) (a_xi s)) ;;
    mmod (set_xi x') ;~
    ghost_event (GStep (fv_x (a_xi s)) (fv_x (a_dx s)) cm m0 t j acc (fv_x x')) ;~
    mret t.

  (* The inner loop, impl.h:237-301; [fuel] = max_inner_iters - i. *)
  Fixpoint inner_loop (fuel : nat) (i : Z) (t Eo tol sigma Ek : T) : MM T :=
    match fuel with
    | 0%nat => mret Eo
    | S fuel' =>
        s <~ mget_ (fun s => s) ;;
        ri_inner (a_xi s) (a_xk s) sigma ;~
        rk_pnr (a_xi s) ;~
        s <~ mget_ (fun s => s) ;;
        let Ei := rsd_norm O (fr_r (a_ri s)) in
        let Eo := rsd_norm O (fr_r (a_rk s)) in
        ghost_event (GInner (fv_x (a_xi s)) Ei Eo) ;~
        if (o_leb O Ei tol && o_ltb O Eo Ek) || o_leb O Ei (p_inner_tol_min (a_opts s))
        then PrintDetailedLine i t ;~ PrintDetailedFooter tol ;~ mret Eo
        else
          PrintDetailedLine i t ;~
          if (p_max_newton (a_opts s) <=? a_newton s)%Z then mret Eo
          else
            t <~ newton_step sigma ;;
            inner_loop fuel' (i + 1)%Z t Eo tol sigma Ek
    end.

  (* SolveProximalSubproblem(xi_, xk_, tol, sigma, Ek), impl.h:227-304 *)
  Definition SolveProximalSubproblem (tol sigma Ek : T) : MM T :=
    mmod (set_merit (repeat (o_zero O) 5)) ;~
    s <~ mget_ (fun s => s) ;;
    Eo <~ inner_loop (Z.to_nat (p_max_inner (a_opts s))) 0%Z (o_one O) (o_zero O) tol sigma Ek ;;
    mmod (fun s => set_xi (fv_project O (a_xi s)) s) ;~
    s <~ mget_ (fun s => s) ;;
    ghost_event (GProject (fv_x (a_xi s))) ;~
    mret Eo.

  (* CheckForInfeasibility(dx_), impl.h:385-400 *)
  Definition flag_of (f : feas_status) : exit_flag :=
    match f with
    | FS_FEASIBLE => SUCCESS
    | FS_PRIMAL => PRIMAL_INFEASIBLE
    | FS_DUAL => DUAL_INFEASIBLE
    | FS_BOTH => PRIMAL_DUAL_INFEASIBLE
    end.
  Definition CheckForInfeasibility : MM exit_flag :=
    s <~ mget_ (fun s => s) ;;
    fs <~ mlift (ff_check O DI (a_dx s) (p_infeas_tol (a_opts s)) (a_ff s)) ;;
    mmod (set_ff (fst fs)) ;~
    mret (flag_of (snd fs)).

  (* The main proximal loop, impl.h:158-218, and the timeout exit, 220-223;
     [fuel] = max_prox_iters - k. *)
  Fixpoint prox_loop (k : vkind) (elapsed sigma E0 : T) (fuel : nat) (inner_tol : T)
    : MM (solver_out T) :=
    match fuel with
    | 0%nat =>
        out <~ PrepareOutput MAXITERATIONS elapsed E0 ;;
        s <~ mget_ (fun s => s) ;;
        WriteVariable k (a_xk s) ;~
        mret out
    | S fuel' =>
        s <~ mget_ (fun s => s) ;;
        rk_pnr (a_xk s) ;~
        s <~ mget_ (fun s => s) ;;
        let Ek := rsd_norm O (fr_r (a_rk s)) in
        if o_leb O Ek (a_combo s) || o_leb O (fv_norm O (a_dx s)) (p_stall_tol (a_opts s))
        then
          PrintIterLine inner_tol ;~
          out <~ PrepareOutput SUCCESS elapsed E0 ;;
          WriteVariable k (a_xk s) ;~
          mret out
        else
          PrintDetailedHeader ;~
          PrintIterLine inner_tol ;~
          itol <~ mlift (saturate O (o_mul O inner_tol (p_delta (a_opts s)))
                                    (p_inner_tol_min (a_opts s)) Ek) ;;
          mmod (set_xi (fv_copy (a_xk s) (a_xi s))) ;~
          ghost_event (GSub inner_tol itol Ek (fv_x (a_xk s))) ;~
          Eo <~ SolveProximalSubproblem itol sigma Ek ;;
          s <~ mget_ (fun s => s) ;;
          if (p_max_newton (a_opts s) <=? a_newton s)%Z
          then
            (if o_ltb O Eo Ek
             then WriteVariable k (a_xi s) ;~ rk_pnr (a_xi s)
             else WriteVariable k (a_xk s) ;~ rk_pnr (a_xk s)) ;~
            PrepareOutput MAXITERATIONS elapsed E0
          else
            let dx := fv_copy (a_xi s) (a_dx s) in
            dx <~ mlift (fv_axpy O DI (o_mone O) (a_xk s) dx) ;;
            mmod (set_dx dx) ;~
            ghost_event (GProx (fv_x dx)) ;~
            ef <~ (if p_check_feas (a_opts s) then CheckForInfeasibility else mret SUCCESS) ;;
            match ef with
            | SUCCESS =>
                s <~ mget_ (fun s => s) ;;
                mmod (set_xk (fv_copy (a_xi s) (a_xk s))) ;~
                mmod (fun s => set_prox (a_prox s + 1)%Z s) ;~
                prox_loop k elapsed sigma E0 fuel' itol
            | _ =>
                out <~ PrepareOutput ef elapsed E0 ;;
                s <~ mget_ (fun s => s) ;;
                WriteVariable k (a_dx s) ;~
                mret out
            end
    end.

  (* Linking of all components to the problem data, impl.h:120-133 *)
  Definition link_all (p : dptr D) (s : ast T D L) : ast T D L :=
    set_ls (ls_link LS p (a_ls s))
   (set_ff (ff_link p (a_ff s))
   (set_ri (fr_link p (a_ri s))
   (set_rk (fr_link p (a_rk s))
   (set_xp (fv_link p (a_xp s))
   (set_dx (fv_link p (a_dx s))
   (set_xi (fv_link p (a_xi s))
   (set_xk (fv_link p (a_xk s)) s))))))).

  (* SetAlpha on residuals and linear solver, impl.h:114-118 *)
  Definition set_alphas (s : ast T D L) : ast T D L :=
    let al := p_alpha (a_opts s) in
    set_ls (ls_setalpha LS al (a_ls s))
   (set_ri (fr_setalpha al (a_ri s))
   (set_rk (fr_setalpha al (a_rk s)) s)).

  (* combo_tol_, impl.h:137 *)
  Definition combo_of (o : params T) (d : D) : T :=
    o_add O (p_abs_tol o) (o_mul O (p_rel_tol o) (o_add O (o_one O) (di_fnorm DI d))).

  (* FBstabAlgorithm::Solve, impl.h:111-224 *)
  Definition Solve (d : D) (k : vkind) (elapsed : T) : MM (solver_out T) :=
    mmod set_alphas ;~
    mmod (link_all (PLive d)) ;~
    s <~ mget_ (fun s => s) ;;
    let sigma := p_sigma0 (a_opts s) in
    mmod (set_combo (combo_of (a_opts s) d)) ;~
    CopyIntoVariable ;~
    s <~ mget_ (fun s => s) ;;
    mmod (set_xi (fv_copy (a_xk s) (a_xi s))) ;~
    dx <~ mlift (fv_fill O DI (o_one O) (a_dx s)) ;;
    mmod (set_dx dx) ;~
    rk_pnr (a_xk s) ;~
    s <~ mget_ (fun s => s) ;;
    mmod (set_ri (fr_fill (o_zero O) (a_ri s))) ;~
    let E0 := rsd_norm O (fr_r (a_rk s)) in
    inner_tol <~ mlift (saturate O E0 (p_inner_tol_min (a_opts s)) (p_inner_tol_max (a_opts s))) ;;
    mmod (set_newton 0%Z) ;~
    mmod (set_prox 0%Z) ;~
    PrintIterHeader ;~
    prox_loop k elapsed sigma E0 (Z.to_nat (p_max_prox (a_opts s))) inner_tol.
End Algorithm.
