(* DenseData, DenseCholeskySolver and the FBstabDense API. *)
From Verif Require Export LinAlg.
Local Open Scope res_scope.

(* ---------------- DenseData ---------------- *)

(* dense_data.h:108-126 (private members) *)
Record dense_data (T : Type) : Type := mkDD {
  dd_nz : nat; dd_nl : nat; dd_nv : nat; dd_fnorm : T;
  dd_H : mat T; dd_G : mat T; dd_A : mat T; dd_f : vec T; dd_h : vec T; dd_b : vec T }.
Arguments mkDD {T}. Arguments dd_nz {T}. Arguments dd_nl {T}. Arguments dd_nv {T}.
Arguments dd_fnorm {T}. Arguments dd_H {T}. Arguments dd_G {T}. Arguments dd_A {T}.
Arguments dd_f {T}. Arguments dd_h {T}. Arguments dd_b {T}.

Section DenseData.
  Context {T : Type} (O : Ops T).

  (* null pointer arguments are dereferenced in the initialiser list *)
  Definition arg {A} (p : option A) : res A :=
    match p with Some a => Ok a | None => UB UBNull end.

  (* constructor, dense_data.h:44-74.  Index-to-int narrowing of sizes is not modelled. *)
  Definition DenseData_ctor (H : option (mat T)) (f : option (vec T)) (G : option (mat T))
             (h : option (vec T)) (A : option (mat T)) (b : option (vec T))
    : res (dense_data T) :=
    H <- arg H ;; G <- arg G ;; A <- arg A ;; f <- arg f ;; h <- arg h ;; b <- arg b ;;
    throw_unless ((mr H =? mc H)%nat && (mr H =? length f)%nat) EDataSize ;;
    throw_unless ((mc A =? mr H)%nat && (mr A =? length b)%nat) EDataSize ;;
    throw_unless ((mc G =? mr H)%nat && (mr G =? length h)%nat) EDataSize ;;
    Ok (mkDD (length f) (length h) (length b)
             (o_sqrt O (o_add O (o_add O (vsqnorm O b) (vsqnorm O f)) (vsqnorm O h)))
             H G A f h b).

  (* y <- a*M*x + b*y, dense_data.cc:12-15 (Eigen evaluates the product into a temporary, so
     there is no aliasing); sizes are not checked. *)
  Definition dense_gemv (Mx : mat T) (x : vec T) (a b : T) (y : vec T) : res (vec T) :=
    ub_unless ((mc Mx =? length x)%nat && (mr Mx =? length y)%nat) UBSize ;;
    let p := mv O Mx x in
    Ok (tab (mr Mx) (fun i => o_add O (o_mul O a (vget O p i)) (o_mul O b (vget O y i)))).
  (* y <- a*M'*x + b*y, dense_data.cc:22-25 *)
  Definition dense_gemvT (Mx : mat T) (x : vec T) (a b : T) (y : vec T) : res (vec T) :=
    ub_unless ((mr Mx =? length x)%nat && (mc Mx =? length y)%nat) UBSize ;;
    let p := mtv O Mx x in
    Ok (tab (mc Mx) (fun i => o_add O (o_mul O a (vget O p i)) (o_mul O b (vget O y i)))).
  (* y += a*w, dense_data.cc:37-41 *)
  Definition dense_axpy (w : vec T) (a : T) (y : vec T) : res (vec T) :=
    ub_unless (length w =? length y)%nat UBSize ;;
    Ok (vaxpy O a w y).

  (* dense_data.cc:12-41, dense_data.h:102 *)
  Definition denseDI : DataI T (dense_data T) :=
    mkDataI (fun d => dense_gemv (dd_H d)) (fun d => dense_gemv (dd_A d))
            (fun d => dense_gemv (dd_G d)) (fun d => dense_gemvT (dd_A d))
            (fun d => dense_gemvT (dd_G d))
            (fun d => dense_axpy (dd_f d)) (fun d => dense_axpy (dd_h d))
            (fun d => dense_axpy (dd_b d)) (fun d => dd_fnorm d).
End DenseData.

(* ---------------- DenseCholeskySolver ---------------- *)

(* dense_cholesky_solver.h, private members that persist between calls.  E_, B_, Gamma_, r1_,
   r2_ are overwritten before use in every call.  K_'s upper right block is never written
   (dense_cholesky_solver.cc:67-69), so K_ is kept; the LDLT object is represented by
   the K_ it was computed from. *)
Record dchol (T : Type) : Type := mkDchol {
  dc_nz : nat; dc_nl : nat; dc_nv : nat; dc_alpha : T; dc_data : dptr (dense_data T);
  dc_K : mat T; dc_gamma : vec T; dc_mus : vec T }.
Arguments mkDchol {T}. Arguments dc_nz {T}. Arguments dc_nl {T}. Arguments dc_nv {T}.
Arguments dc_alpha {T}. Arguments dc_data {T}. Arguments dc_K {T}. Arguments dc_gamma {T}.
Arguments dc_mus {T}.

Section DenseSolver.
  Context {T : Type} (O : Ops T) (LA : LinAlg T).
  Notation D := (dense_data T).

  (* constructor, dense_cholesky_solver.cc:12-30; [gK] is the uninitialised content of K_ *)
  Definition DenseCholeskySolver_ctor (nz nl nv : Z) (gK : nat -> nat -> T) : res (dchol T) :=
    throw_unless (negb ((nz <=? 0)%Z || (nv <=? 0)%Z || (nl <? 0)%Z)) ECtorSize ;;
    let n := Z.to_nat nz in let p := Z.to_nat nl in let q := Z.to_nat nv in
    Ok (mkDchol n p q (o_dec O 95 (-2)) PNull (mtab (n + p) (n + p) gK)
                (vconst q (o_zero O)) (vconst q (o_zero O))).

  Definition dc_setalpha (a : T) (c : dchol T) : dchol T :=
    mkDchol (dc_nz c) (dc_nl c) (dc_nv c) a (dc_data c) (dc_K c) (dc_gamma c) (dc_mus c).
  Definition dc_link (p : dptr D) (c : dchol T) : dchol T :=
    mkDchol (dc_nz c) (dc_nl c) (dc_nv c) (dc_alpha c) p (dc_K c) (dc_gamma c) (dc_mus c).

  (* E = H + sigma I + A'*diag(Gamma)*A, dense_cholesky_solver.cc:52, 62-63 *)
  Definition dense_E (d : D) (sigma : T) (Gamma : vec T) (nz : nat) : mat T :=
    let E := madd O (dd_H d) (meye O nz sigma) in
    let B := mdiag_l O Gamma (dd_A d) in
    madd O E (mm O (mtrans O (dd_A d)) B).

  (* K = [E old; G -sigma I], dense_cholesky_solver.cc:67-69; the upper right block is never
     written and keeps its [old] content *)
  Definition dense_K (old E G : mat T) (sigma : T) (nz nl : nat) : mat T :=
    mtab (nz + nl) (nz + nl) (fun i j =>
      if i <? nz then (if j <? nz then mget O E i j else mget O old i j)
      else (if j <? nz then mget O G (i - nz) j
            else (if i =? j then o_mul O (o_opp O sigma) (o_one O)
                  else o_mul O (o_opp O sigma) (o_zero O)))).

  (* Initialize, dense_cholesky_solver.cc:32-79.  The data sizes are not compared with the
     solver's: a mismatch is undefined (Eigen). *)
  Definition dc_init (c : dchol T) (x xbar : fvar T D) (sigma : T) : dchol T * res bool :=
    let n := dc_nz c in let p := dc_nl c in let q := dc_nv c in
    let r :=
      d <- deref_checked (dc_data c) ;;
      throw_unless (fv_same x xbar) ESolverSize ;;
      throw_unless ((fv_nz xbar =? n)%nat && (fv_nv xbar =? q)%nat) ESolverSize ;;
      throw_unless (negb (o_leb O sigma (o_zero O))) ESigma ;;
      ub_unless ((mr (dd_H d) =? n)%nat && (mc (dd_H d) =? n)%nat &&
                 (mr (dd_A d) =? q)%nat && (mc (dd_A d) =? n)%nat &&
                 (mr (dd_G d) =? p)%nat && (mc (dd_G d) =? n)%nat &&
                 (q <=? length (v_y (fv_x x)))%nat && (q <=? length (v_v (fv_x x)))%nat &&
                 (q <=? length (v_v (fv_x xbar)))%nat) UBSize ;;
      Ok d in
    match r with
    | Ok d =>
        let gamma := w_gamma O (dc_alpha c) sigma (fv_x x) (fv_x xbar) q in
        let mus := w_mus O (dc_alpha c) sigma (fv_x x) (fv_x xbar) q in
        let E := dense_E d sigma (w_Gamma O gamma mus) n in
        let K := dense_K (dc_K c) E (dd_G d) sigma n p in
        (mkDchol n p q (dc_alpha c) (dc_data c) K gamma mus, Ok (la_ldlt_ok LA (symlow O K)))
    | Throw e => (c, Throw e)
    | UB u => (c, UB u)
    end.

  (* the arithmetic of Solve, dense_cholesky_solver.cc:106-124 *)
  Definition dense_step (d : D) (K : mat T) (gamma mus : vec T) (r : rsd T) (nz nl : nat) : var T :=
    let A := dd_A d in
    let r2 := vquot O (r_v r) mus in
    let r1 := vsub O (r_z r) (mtv O A r2) ++ vopp O (r_l r) in
    let s := la_ldlt_solve LA (symlow O K) r1 in
    let z := vseg O s 0 nz in
    let l := vseg O s nz nl in
    let Az := mv O A z in
    let v := tab (length mus) (fun i =>
               o_div O (o_add O (o_mul O (vget O gamma i) (vget O Az i)) (vget O (r_v r) i))
                       (vget O mus i)) in
    let y := vsub O (dd_b d) Az in
    mkVar z l v y.

  (* Solve, dense_cholesky_solver.cc:81-127.  [data_] is dereferenced without a null check. *)
  Definition dc_solve (c : dchol T) (r : fres T D) (x : option (fvar T D))
    : res (bool * fvar T D) :=
    match x with
    | None => Throw ENullArg
    | Some x =>
        throw_unless (fr_same r x) ESolverSize ;;
        throw_unless ((fv_nz x =? dc_nz c)%nat && (fv_nv x =? dc_nv c)%nat &&
                      (fv_nl x =? dc_nl c)%nat) ESolverSize ;;
        d <- deref (dc_data c) ;;
        let s := fr_r r in
        ub_unless ((length (r_v s) =? length (dc_mus c))%nat &&
                   (mr (dd_A d) =? length (r_v s))%nat && (mc (dd_A d) =? dc_nz c)%nat &&
                   (length (r_z s) =? dc_nz c)%nat && (length (r_l s) =? dc_nl c)%nat &&
                   (mr (dc_K c) =? dc_nz c + dc_nl c)%nat &&
                   (length (dd_b d) =? mr (dd_A d))%nat) UBSize ;;
        Ok (true, fv_set x (dense_step d (dc_K c) (dc_gamma c) (dc_mus c) s (dc_nz c) (dc_nl c)))
    end.

  Definition denseLS : LSI T D (dchol T) :=
    mkLSI dc_setalpha dc_link dc_init (fun c r x => dc_solve c r (Some x)).
End DenseSolver.

(* ---------------- FBstabDense ---------------- *)

(* ProblemData / ProblemDataRef (fbstab_dense.h:55-82).  Both are read through
   data(), rows(), cols(), so one record serves both. *)
Record dense_qp (T : Type) : Type := mkDQP {
  q_H : mat T; q_f : vec T; q_G : mat T; q_h : vec T; q_A : mat T; q_b : vec T }.
Arguments mkDQP {T}. Arguments q_H {T}. Arguments q_f {T}. Arguments q_G {T}.
Arguments q_h {T}. Arguments q_A {T}. Arguments q_b {T}.

(* Result of a Solve call as the caller sees it: the returned value or exception, the caller's
   vectors afterwards, what was printed (and the ghost trace). *)
Record solve_result (T : Type) : Type := mkSR {
  sr_out : res (solver_out T); sr_x : var T; sr_log : list (event T); sr_trace : list (ghost T) }.
Arguments mkSR {T}. Arguments sr_out {T}. Arguments sr_x {T}. Arguments sr_log {T}.
Arguments sr_trace {T}.

Section RunSolve.
  Context {T D L : Type} (O : Ops T) (DI : DataI T D) (LS : LSI T D L).
  (* Calling algorithm_->Solve from a wrapper: install the caller's vectors, run, and hand back
     the caller's view.  The problem data is a local of the wrapper (fbstab_dense.h:139,
     fbstab_mpc.h:184), so afterwards every component points at a dead object. *)
  Definition empty_var : var T := mkVar [] [] [] [].
  Definition call_solve (s : ast T D L) (d : D) (k : vkind) (x : var T) (elapsed : T)
    : ast T D L * solve_result T :=
    let s0 := set_trace [] (set_log [] (set_caller x s)) in
    let '(s1, r) := Solve O DI LS d k elapsed s0 in
    (link_all LS PDangling (set_trace [] (set_log [] (set_caller empty_var s1))),
     mkSR r (a_caller s1) (a_log s1) (a_trace s1)).
End RunSolve.

(* fbstab_dense.h:164-193 *)
Record dense_solver (T : Type) : Type := mkDS {
  ds_nz : Z; ds_nl : Z; ds_nv : Z; ds_alg : ast T (dense_data T) (dchol T) }.
Arguments mkDS {T}. Arguments ds_nz {T}. Arguments ds_nl {T}. Arguments ds_nv {T}.
Arguments ds_alg {T}.

(* Uninitialised memory of a freshly constructed solver: the feasibility workspaces and K_. *)
Record garbage (T : Type) : Type := mkGarbage {
  g_tz : nat -> T; g_tl : nat -> T; g_tv : nat -> T; g_mat : nat -> nat -> nat -> T }.
Arguments mkGarbage {T}. Arguments g_tz {T}. Arguments g_tl {T}. Arguments g_tv {T}.
Arguments g_mat {T}.

Section FBstabDense.
  Context {T : Type} (O : Ops T) (LA : LinAlg T).

  (* FBstabAlgorithm constructor, impl.h:77-108 (the component pointers are never null here);
     combo_tol_, counters and merit_buffer_ have in-class initialisers
     (fbstab_algorithm.h:152-181). *)
  Definition FBstabAlgorithm_ctor {D L} (x1 x2 x3 x4 : fvar T D) (r1 r2 : fres T D) (ls : L)
             (ff : ffeas T D) : ast T D L :=
    mkAst (DefaultParameters O) (o_zero O) 0%Z 0%Z x1 x2 x3 x4 r1 r2 ls ff
          (repeat (o_zero O) 5) empty_var [] [].

  (* constructor, fbstab_dense.cc:18-42 *)
  Definition FBstabDense_new (g : garbage T) (nz nl nv : Z) : res (dense_solver T) :=
    throw_unless (negb ((nz <=? 0)%Z || (nv <=? 0)%Z || (nl <? 0)%Z)) ECtorSize ;;
    x <- FullVariable_ctor O nz nl nv ;;
    r <- FullResidual_ctor O nz nl nv ;;
    ff <- FullFeasibility_ctor nz nl nv (g_tz g) (g_tl g) (g_tv g) ;;
    ls <- DenseCholeskySolver_ctor O nz nl nv (g_mat g 0%nat) ;;
    Ok (mkDS nz nl nv (FBstabAlgorithm_ctor x x x x r r ls ff)).

  (* UpdateOptions, fbstab_dense.cc:44-48 *)
  Definition FBstabDense_UpdateOptions (s : dense_solver T) (o : params T)
    : dense_solver T * res unit :=
    match UpdateParameters O (a_opts (ds_alg s)) o with
    | Ok p => (mkDS (ds_nz s) (ds_nl s) (ds_nv s) (set_opts p (ds_alg s)), Ok tt)
    | Throw e => (s, Throw e)
    | UB u => (s, UB u)
    end.

  (* ValidateInputs, fbstab_dense.h:169-180 (y is not looked at) *)
  Definition dense_validate (s : dense_solver T) (d : dense_data T) (x : var T) : res unit :=
    throw_unless ((ds_nz s =? Z.of_nat (dd_nz d))%Z && (ds_nv s =? Z.of_nat (dd_nv d))%Z &&
                  (ds_nl s =? Z.of_nat (dd_nl d))%Z) EInputSize ;;
    throw_unless ((ds_nz s =? Z.of_nat (length (v_z x)))%Z &&
                  (Z.of_nat (length (v_l x)) =? ds_nl s)%Z &&
                  (ds_nv s =? Z.of_nat (length (v_v x)))%Z) EInputSize.

  (* Solve, fbstab_dense.h:136-142 *)
  Definition FBstabDense_Solve (s : dense_solver T) (qp : dense_qp T) (k : vkind) (x : var T)
             (elapsed : T) : dense_solver T * solve_result T :=
    match DenseData_ctor O (Some (q_H qp)) (Some (q_f qp)) (Some (q_G qp)) (Some (q_h qp))
                           (Some (q_A qp)) (Some (q_b qp)) with
    | Throw e => (s, mkSR (Throw e) x [] [])
    | UB u => (s, mkSR (UB u) x [] [])
    | Ok d =>
        match dense_validate s d x with
        | Throw e => (s, mkSR (Throw e) x [] [])
        | UB u => (s, mkSR (UB u) x [] [])
        | Ok _ =>
            let '(a, r) := call_solve O (denseDI O) (denseLS O LA) (ds_alg s) d k x elapsed in
            (mkDS (ds_nz s) (ds_nl s) (ds_nv s) a, r)
        end
    end.

  (* the options the solver currently uses (FBstabAlgorithm::CurrentParameters) *)
  Definition ds_options (s : dense_solver T) : params T := a_opts (ds_alg s).
End FBstabDense.
