(* Solve on caller memory (ProblemDataRef / VariableRef): the problem data and the caller's
   vectors are windows into one memory, which may overlap.

   Solve stores to the caller's memory in one place only, WriteVariable (impl.h:349-360), which
   runs exactly once on every path that returns, and reads the guess in one place only,
   CopyIntoVariable (impl.h:140).  The problem data, however, is read through the pointers
   whenever a component needs it -- also after WriteVariable on the path of impl.h:188-198.
   So every WriteVariable is modelled here as the write followed by re-reading the data. *)
From Verif Require Export Riccati.
Local Open Scope res_scope.

Section Shared.
  Context {T D L : Type} (O : Ops T) (DI : DataI T D) (LS : LSI T D L).
  (* [reload w]: what the data object shows once the caller's vectors hold w *)
  Context (reload : var T -> D).
  Local Open Scope m_scope.
  Notation MM := (M (ast T D L)).

  (* WriteVariable, impl.h:349-360; afterwards every component sees the data in the new memory *)
  Definition WriteShared (k : vkind) (x : fvar T D) : MM unit :=
    WriteVariable k x ;~
    s <~ mget_ (fun s => s) ;;
    mmod (link_all LS (PLive (reload (a_caller s)))).

  (* the main proximal loop, impl.h:158-223: Algorithm.prox_loop with WriteShared *)
  Fixpoint prox_loop_shared (k : vkind) (elapsed sigma E0 : T) (fuel : nat) (inner_tol : T)
    : MM (solver_out T) :=
    match fuel with
    | 0%nat =>
        out <~ PrepareOutput O MAXITERATIONS elapsed E0 ;;
        s <~ mget_ (fun s => s) ;;
        WriteShared k (a_xk s) ;~
        mret out
    | S fuel' =>
        s <~ mget_ (fun s => s) ;;
        rk_pnr O DI (a_xk s) ;~
        s <~ mget_ (fun s => s) ;;
        let Ek := rsd_norm O (fr_r (a_rk s)) in
        if o_leb O Ek (a_combo s) || o_leb O (fv_norm O (a_dx s)) (p_stall_tol (a_opts s))
        then
          PrintIterLine O inner_tol ;~
          out <~ PrepareOutput O SUCCESS elapsed E0 ;;
          WriteShared k (a_xk s) ;~
          mret out
        else
          PrintDetailedHeader O ;~
          PrintIterLine O inner_tol ;~
          itol <~ mlift (saturate O (o_mul O inner_tol (p_delta (a_opts s)))
                                    (p_inner_tol_min (a_opts s)) Ek) ;;
          mmod (set_xi (fv_copy (a_xk s) (a_xi s))) ;~
          ghost_event (GSub inner_tol itol Ek (fv_x (a_xk s))) ;~
          Eo <~ SolveProximalSubproblem O DI LS itol sigma Ek ;;
          s <~ mget_ (fun s => s) ;;
          if (p_max_newton (a_opts s) <=? a_newton s)%Z
          then
            (* impl.h:188-198: the residual is evaluated after the write *)
            (if o_ltb O Eo Ek
             then WriteShared k (a_xi s) ;~ s <~ mget_ (fun s => s) ;; rk_pnr O DI (a_xi s)
             else WriteShared k (a_xk s) ;~ s <~ mget_ (fun s => s) ;; rk_pnr O DI (a_xk s)) ;~
            PrepareOutput O MAXITERATIONS elapsed E0
          else
            let dx := fv_copy (a_xi s) (a_dx s) in
            dx <~ mlift (fv_axpy O DI (o_mone O) (a_xk s) dx) ;;
            mmod (set_dx dx) ;~
            ghost_event (GProx (fv_x dx)) ;~
            ef <~ (if p_check_feas (a_opts s) then CheckForInfeasibility O DI else mret SUCCESS) ;;
            match ef with
            | SUCCESS =>
                s <~ mget_ (fun s => s) ;;
                mmod (set_xk (fv_copy (a_xi s) (a_xk s))) ;~
                mmod (fun s => set_prox (a_prox s + 1)%Z s) ;~
                prox_loop_shared k elapsed sigma E0 fuel' itol
            | _ =>
                out <~ PrepareOutput O ef elapsed E0 ;;
                s <~ mget_ (fun s => s) ;;
                WriteShared k (a_dx s) ;~
                mret out
            end
    end.

  (* FBstabAlgorithm::Solve, impl.h:111-224: Algorithm.Solve with the loop above *)
  Definition Solve_shared (d : D) (k : vkind) (elapsed : T) : MM (solver_out T) :=
    mmod (set_alphas LS) ;~
    mmod (link_all LS (PLive d)) ;~
    s <~ mget_ (fun s => s) ;;
    let sigma := p_sigma0 (a_opts s) in
    mmod (set_combo (combo_of O DI (a_opts s) d)) ;~
    CopyIntoVariable O DI ;~
    s <~ mget_ (fun s => s) ;;
    mmod (set_xi (fv_copy (a_xk s) (a_xi s))) ;~
    dx <~ mlift (fv_fill O DI (o_one O) (a_dx s)) ;;
    mmod (set_dx dx) ;~
    rk_pnr O DI (a_xk s) ;~
    s <~ mget_ (fun s => s) ;;
    mmod (set_ri (fr_fill (o_zero O) (a_ri s))) ;~
    let E0 := rsd_norm O (fr_r (a_rk s)) in
    inner_tol <~ mlift (saturate O E0 (p_inner_tol_min (a_opts s)) (p_inner_tol_max (a_opts s))) ;;
    mmod (set_newton 0%Z) ;~
    mmod (set_prox 0%Z) ;~
    PrintIterHeader ;~
    prox_loop_shared k elapsed sigma E0 (Z.to_nat (p_max_prox (a_opts s))) inner_tol.

  (* as DenseModel.call_solve *)
  Definition call_shared (s : ast T D L) (d : D) (k : vkind) (x : var T) (elapsed : T)
    : ast T D L * solve_result T :=
    let s0 := set_trace [] (set_log [] (set_caller x s)) in
    let '(s1, r) := Solve_shared d k elapsed s0 in
    (link_all LS PDangling (set_trace [] (set_log [] (set_caller empty_var s1))),
     mkSR r (a_caller s1) (a_log s1) (a_trace s1)).
End Shared.

(* ---------------- caller memory ---------------- *)

(* The caller's memory, as an array of doubles: one T per address.  That the windows below lie
   in memory that exists is the caller's obligation ("it is the responsibility of the user to
   ensure the memory remains valid", matrix_sequence.h:92-93). *)
Definition memory (T : Type) : Type := nat -> T.

(* Eigen::Map<VectorXd>(data, size) *)
Record span : Type := mkSpan { sp_at : nat; sp_len : nat }.
(* Eigen::Map<MatrixXd>(data, rows, cols), column major *)
Record mview : Type := mkView { mv_at : nat; mv_r : nat; mv_c : nat }.
(* MapMatrixSequence(data, len, nrows, ncols), matrix_sequence.h:103-121 *)
Record sview : Type := mkSview { sq_at : nat; sq_N : Z; sq_nr : Z; sq_nc : Z }.

(* FBstabDense::ProblemDataRef, fbstab_dense.h:67-82 *)
Record dense_view : Type := mkDV {
  dv_H : mview; dv_f : span; dv_G : mview; dv_h : span; dv_A : mview; dv_b : span }.
(* FBstabMpc::ProblemDataRef, fbstab_mpc.h:86-119 *)
Record mpc_view : Type := mkMV {
  w_Q : sview; w_R : sview; w_S : sview; w_q : sview; w_r : sview; w_A : sview; w_B : sview;
  w_c : sview; w_E : sview; w_L : sview; w_d : sview; w_x0 : span }.
(* FBstabDense::VariableRef, fbstab_dense.h:95-107; FBstabMpc::VariableRef, fbstab_mpc.h:146-158 *)
Record var_view : Type := mkVV { vv_z : span; vv_l : span; vv_v : span; vv_y : span }.

Section Memory.
  Context {T : Type} (O : Ops T).

  (* reading and writing through a Map; a write of matching size stores element by element *)
  Definition load (m : memory T) (s : span) : vec T := tab (sp_len s) (fun i => m (sp_at s + i)%nat).
  Definition store (m : memory T) (s : span) (v : vec T) : memory T :=
    fun a => if (sp_at s <=? a)%nat && (a <? sp_at s + sp_len s)%nat
             then vget O v (a - sp_at s) else m a.

  Definition load_mat (m : memory T) (v : mview) : mat T :=
    mkMat (mv_r v) (mv_c v) (load m (mkSpan (mv_at v) (mv_r v * mv_c v))).
  Definition load_seq (m : memory T) (v : sview) : mapseq T :=
    let nel := (sq_N v * sq_nr v * sq_nc v)%Z in
    mkMap (sq_N v) (sq_nr v) (sq_nc v) nel (Some (load m (mkSpan (sq_at v) (Z.to_nat nel)))).
  Definition load_dense (m : memory T) (q : dense_view) : dense_qp T :=
    mkDQP (load_mat m (dv_H q)) (load m (dv_f q)) (load_mat m (dv_G q)) (load m (dv_h q))
          (load_mat m (dv_A q)) (load m (dv_b q)).
  Definition load_mpc (m : memory T) (q : mpc_view) : mpc_ref T :=
    mkMR (load_seq m (w_Q q)) (load_seq m (w_R q)) (load_seq m (w_S q)) (load_seq m (w_q q))
         (load_seq m (w_r q)) (load_seq m (w_A q)) (load_seq m (w_B q)) (load_seq m (w_c q))
         (load_seq m (w_E q)) (load_seq m (w_L q)) (load_seq m (w_d q)) (load m (w_x0 q)).
  Definition load_var (m : memory T) (w : var_view) : var T :=
    mkVar (load m (vv_z w)) (load m (vv_l w)) (load m (vv_v w)) (load m (vv_y w)).
  (* the four assignments of WriteVariable in order, impl.h:355-358 *)
  Definition store_var (m : memory T) (w : var_view) (x : var T) : memory T :=
    store (store (store (store m (vv_z w) (v_z x)) (vv_l w) (v_l x)) (vv_v w) (v_v x))
          (vv_y w) (v_y x).

  (* VariableRef::fill, fbstab_dense.cc:101-106 and fbstab_mpc.cc:54-59 *)
  Definition fill_var (m : memory T) (w : var_view) (a : T) : memory T :=
    store (store (store (store m (vv_z w) (vconst (sp_len (vv_z w)) a))
                         (vv_l w) (vconst (sp_len (vv_l w)) a))
                  (vv_v w) (vconst (sp_len (vv_v w)) a))
           (vv_y w) (vconst (sp_len (vv_y w)) a).

  (* the DenseData object over changed memory: its Maps are the same, nz_, nl_, nv_ and
     forcing_norm_ were computed at construction (dense_data.h:44-74) *)
  Definition reload_dense (d : dense_data T) (q : dense_view) (m : memory T) : dense_data T :=
    mkDD (dd_nz d) (dd_nl d) (dd_nv d) (dd_fnorm d)
         (load_mat m (dv_H q)) (load_mat m (dv_G q)) (load_mat m (dv_A q))
         (load m (dv_f q)) (load m (dv_h q)) (load m (dv_b q)).
  (* the MpcData object over changed memory (mpc_data.h:62-98, 204-226) *)
  Definition reload_mpc (d : mpc_data T) (q : mpc_view) (m : memory T) : mpc_data T :=
    mkMD (md_N d) (md_nx d) (md_nu d) (md_nc d) (md_nz d) (md_nl d) (md_nv d) (md_fnorm d)
         (load_mpc m q).
End Memory.

(* What a Solve on caller memory leaves: the returned value or exception, the memory, the
   printed lines and the ghost trace. *)
Record mem_result (T : Type) : Type := mkMres {
  me_out : res (solver_out T); me_mem : memory T; me_log : list (event T);
  me_trace : list (ghost T) }.
Arguments mkMres {T}. Arguments me_out {T}. Arguments me_mem {T}. Arguments me_log {T}.
Arguments me_trace {T}.

Section SharedApi.
  Context {T : Type} (O : Ops T) (LA : LinAlg T).

  (* FBstabDense::Solve with ProblemDataRef and VariableRef, fbstab_dense.h:136-142 *)
  Definition FBstabDense_SolveRef (s : dense_solver T) (m : memory T) (q : dense_view)
             (w : var_view) (elapsed : T) : dense_solver T * mem_result T :=
    let qp := load_dense m q in
    let x := load_var m w in
    match DenseData_ctor O (Some (q_H qp)) (Some (q_f qp)) (Some (q_G qp)) (Some (q_h qp))
                           (Some (q_A qp)) (Some (q_b qp)) with
    | Throw e => (s, mkMres (Throw e) m [] [])
    | UB u => (s, mkMres (UB u) m [] [])
    | Ok d =>
        match dense_validate s d x with
        | Throw e => (s, mkMres (Throw e) m [] [])
        | UB u => (s, mkMres (UB u) m [] [])
        | Ok _ =>
            let '(a, r) := call_shared O (denseDI O) (denseLS O LA)
                             (fun y => reload_dense d q (store_var O m w y))
                             (ds_alg s) d Mapped x elapsed in
            (mkDS (ds_nz s) (ds_nl s) (ds_nv s) a,
             mkMres (sr_out r) (store_var O m w (sr_x r)) (sr_log r) (sr_trace r))
        end
    end.

  (* FBstabMpc::Solve with ProblemDataRef and VariableRef, fbstab_mpc.h:181-188 *)
  Definition FBstabMpc_SolveRef (s : mpc_solver T) (m : memory T) (q : mpc_view)
             (w : var_view) (elapsed : T) : mpc_solver T * mem_result T :=
    let x := load_var m w in
    match MpcData_ctor O (load_mpc m q) with
    | Throw e => (s, mkMres (Throw e) m [] [])
    | UB u => (s, mkMres (UB u) m [] [])
    | Ok d =>
        match mpc_validate_inputs s d x with
        | Throw e => (s, mkMres (Throw e) m [] [])
        | UB u => (s, mkMres (UB u) m [] [])
        | Ok _ =>
            let '(a, r) := call_shared O (mpcDI O) (mpcLS O LA)
                             (fun y => reload_mpc d q (store_var O m w y))
                             (mps_alg s) d Mapped x elapsed in
            (mkMS (mps_N s) (mps_nx s) (mps_nu s) (mps_nc s) (mps_nz s) (mps_nl s) (mps_nv s) a,
             mkMres (sr_out r) (store_var O m w (sr_x r)) (sr_log r) (sr_trace r))
        end
    end.
End SharedApi.
