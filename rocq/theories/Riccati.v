(* RiccatiLinearSolver and the FBstabMpc API. *)
From Verif Require Export MpcModel DenseModel.
Local Open Scope res_scope.

(* Per-stage workspace: riccati_linear_solver.h, Q_[i] ... AM_[i]. *)
Record rstage (T : Type) : Type := mkStage {
  st_Q : mat T; st_R : mat T; st_S : mat T; st_P : mat T; st_SG : mat T; st_M : mat T;
  st_L : mat T; st_SM : mat T; st_AM : mat T }.
Arguments mkStage {T}. Arguments st_Q {T}. Arguments st_R {T}. Arguments st_S {T}.
Arguments st_P {T}. Arguments st_SG {T}. Arguments st_M {T}. Arguments st_L {T}.
Arguments st_SM {T}. Arguments st_AM {T}.

(* RiccatiLinearSolver members that persist; the others are overwritten before use. *)
Record ricc (T : Type) : Type := mkRicc {
  rc_N : nat; rc_nx : nat; rc_nu : nat; rc_nc : nat; rc_nz : nat; rc_nl : nat; rc_nv : nat;
  rc_alpha : T; rc_data : dptr (mpc_data T);
  rc_ws : list (rstage T); rc_gamma : vec T; rc_mus : vec T }.
Arguments mkRicc {T}. Arguments rc_N {T}. Arguments rc_nx {T}. Arguments rc_nu {T}.
Arguments rc_nc {T}. Arguments rc_nz {T}. Arguments rc_nl {T}. Arguments rc_nv {T}.
Arguments rc_alpha {T}. Arguments rc_data {T}. Arguments rc_ws {T}. Arguments rc_gamma {T}.
Arguments rc_mus {T}.

Section Riccati.
  Context {T : Type} (O : Ops T) (LA : LinAlg T).
  Notation D := (mpc_data T).

  (* constructor, riccati_linear_solver.cc:17-75; matrices are allocated, not initialised:
     [g] is their arbitrary content.  Sizes are int arithmetic. *)
  Definition RiccatiLinearSolver_ctor (N nx nu nc : Z) (g : nat -> nat -> nat -> T)
    : res (ricc T) :=
    throw_unless (negb ((N <=? 0)%Z || (nx <=? 0)%Z || (nu <=? 0)%Z || (nc <=? 0)%Z)) ECtorSize ;;
    N1 <- iadd N 1 ;; w <- iadd nx nu ;;
    nz <- imul N1 w ;; nl <- imul N1 nx ;; nv <- imul N1 nc ;;
    let x := Z.to_nat nx in let u := Z.to_nat nu in
    let st i := mkStage (mtab x x (g (9 * i))) (mtab u u (g (9 * i + 1)))
                        (mtab u x (g (9 * i + 2))) (mtab x u (g (9 * i + 3)))
                        (mtab u u (g (9 * i + 4))) (mtab x x (g (9 * i + 5)))
                        (mtab x x (g (9 * i + 6))) (mtab u x (g (9 * i + 7)))
                        (mtab x x (g (9 * i + 8))) in
    Ok (mkRicc (Z.to_nat N) x u (Z.to_nat nc) (Z.to_nat nz) (Z.to_nat nl) (Z.to_nat nv)
               (o_dec O 95 (-2)) PNull (tab (Z.to_nat N1) st)
               (vconst (Z.to_nat nv) (o_zero O)) (vconst (Z.to_nat nv) (o_zero O))).

  Definition rc_setalpha (a : T) (c : ricc T) : ricc T :=
    mkRicc (rc_N c) (rc_nx c) (rc_nu c) (rc_nc c) (rc_nz c) (rc_nl c) (rc_nv c) a (rc_data c)
           (rc_ws c) (rc_gamma c) (rc_mus c).
  Definition rc_link (p : dptr D) (c : ricc T) : ricc T :=
    mkRicc (rc_N c) (rc_nx c) (rc_nu c) (rc_nc c) (rc_nz c) (rc_nl c) (rc_nv c) (rc_alpha c) p
           (rc_ws c) (rc_gamma c) (rc_mus c).

  (* Eigen::LLT<Ref<MatrixXd>>: in place, reads and writes the lower triangle only *)
  Definition llt_inplace (M : mat T) : option (mat T) :=
    match la_llt LA (symlow O M) with
    | Some F => Some (mlower_assign O M F)
    | None => None
    end.

  (* The barrier-augmented Hessian of stage i, riccati_linear_solver.cc:103-122.  The code
     computes it for all stages before the recursion; here it is computed when needed. *)
  Definition augment (d : D) (sigma : T) (Gamma : vec T) (i : nat) (old : rstage T)
    : res (mat T * mat T * mat T) :=
    let nx := md_nx d in let nu := md_nu d in let nc := md_nc d in
    E <- at_ (m_E (md_m d)) i ;; L <- at_ (m_L (md_m d)) i ;;
    Qd <- at_ (m_Q (md_m d)) i ;; Rd <- at_ (m_R (md_m d)) i ;; Sd <- at_ (m_S (md_m d)) i ;;
    shape E nc nx ;; shape L nc nu ;; shape Qd nx nx ;; shape Rd nu nu ;; shape Sd nu nx ;;
    let G := vseg O Gamma (i * nc) nc in
    let Q := mlower_assign O (st_Q old) (madd O Qd (meye O nx sigma)) in
    let R := mlower_assign O (st_R old) (madd O Rd (meye O nu sigma)) in
    let Et := mdiag_l O G E in
    let Q := mlower_assign O Q (madd O Q (mm O (mtrans O E) Et)) in
    let Lt := mdiag_l O G L in
    let R := mlower_assign O R (madd O R (mm O (mtrans O L) Lt)) in
    let S := madd O Sd (mm O (mtrans O L) Et) in
    Ok (Q, R, S).

  (* inv(L*L') by two triangular solves on the identity, riccati_linear_solver.cc:142-144 *)
  Definition inv_llt (L : mat T) (nx : nat) : mat T :=
    ltsolve_mat O LA L (lsolve_mat O LA L (meye O nx (o_one O))).

  (* The matrix recursion, riccati_linear_solver.cc:138-206.  [n] stages remain before the last
     one; [L] is L_[i].  None = some LLT failed (return false).  On failure the C++ leaves a
     partially updated workspace; the model keeps the old one (nothing reads it: the
     algorithm throws and the next Initialize rewrites it). *)
  Fixpoint ric_matrices (n i : nat) (L : mat T) (d : D) (sigma : T) (Gamma : vec T)
           (old : list (rstage T)) : res (option (list (rstage T))) :=
    let nx := md_nx d in
    match old with
    | [] => UB UBSize
    | o :: old' =>
      qrs <- augment d sigma Gamma i o ;;
      let '(Q, R, Sm) := qrs in
      let Linv := inv_llt L nx in
      match llt_inplace (mlower_assign O (st_M o) (madd O Q Linv)) with
      | None => Ok None
      | Some M =>
        let SM := rsolve_mat O LA M Sm in
        match llt_inplace (msub O R (mm O SM (mtrans O SM))) with
        | None => Ok None
        | Some SG =>
          match n with
          | 0%nat => Ok (Some [mkStage Q R Sm (st_P o) SG M L SM (st_AM o)])
          | S n' =>
            A <- at_ (m_A (md_m d)) i ;; B <- at_ (m_B (md_m d)) i ;;
            shape A nx nx ;; shape B nx (md_nu d) ;;
            let AM := rsolve_mat O LA M A in
            let P := rsolve_mat O LA SG (msub O (mm O AM (mtrans O SM)) B) in
            let L1 := madd O (madd O (meye O nx sigma) (mm O P (mtrans O P)))
                             (mm O AM (mtrans O AM)) in
            match llt_inplace L1 with
            | None => Ok None
            | Some L1 =>
              rest <- ric_matrices n' (Datatypes.S i) L1 d sigma Gamma old' ;;
              Ok (match rest with
                  | Some sts => Some (mkStage Q R Sm P SG M L SM AM :: sts)
                  | None => None
                  end)
            end
          end
        end
      end
    end.

  (* Initialize, riccati_linear_solver.cc:77-210 (order of the checks as in the code) *)
  Definition rc_init (c : ricc T) (x xbar : fvar T D) (sigma : T) : ricc T * res bool :=
    let r :=
      throw_unless (fv_same x xbar) ESolverSize ;;
      throw_unless (negb (o_leb O sigma (o_zero O))) ESigma ;;
      d <- deref_checked (rc_data c) ;;
      ub_unless ((md_N d =? rc_N c)%nat && (md_nx d =? rc_nx c)%nat && (md_nu d =? rc_nu c)%nat &&
                 (md_nc d =? rc_nc c)%nat &&
                 (rc_nv c <=? length (v_y (fv_x x)))%nat && (rc_nv c <=? length (v_v (fv_x x)))%nat &&
                 (rc_nv c <=? length (v_v (fv_x xbar)))%nat) UBSize ;;
      let gamma := w_gamma O (rc_alpha c) sigma (fv_x x) (fv_x xbar) (rc_nv c) in
      let mus := w_mus O (rc_alpha c) sigma (fv_x x) (fv_x xbar) (rc_nv c) in
      let L0 := meye O (rc_nx c) (o_sqrt O sigma) in
      sts <- ric_matrices (rc_N c) 0 L0 d sigma (w_Gamma O gamma mus) (rc_ws c) ;;
      Ok (gamma, mus, sts) in
    match r with
    | Ok (gamma, mus, Some sts) =>
        (mkRicc (rc_N c) (rc_nx c) (rc_nu c) (rc_nc c) (rc_nz c) (rc_nl c) (rc_nv c) (rc_alpha c)
                (rc_data c) sts gamma mus, Ok true)
    | Ok (_, _, None) => (c, Ok false)
    | Throw e => (c, Throw e)
    | UB u => (c, UB u)
    end.

  (* inv(L*L')*b *)
  Definition solve_llt (L : mat T) (b : vec T) : vec T :=
    ltsolve_vec O LA L (lsolve_vec O LA L b).
  Definition vneg (v : vec T) : vec T := vscale O (o_mone O) v.

  (* rx(i), ru(i), rl(i): blocks of r1_ and r2_, riccati_linear_solver.cc:227-228 *)
  Definition blk_x (r1 : vec T) (nx nu i : nat) : vec T := vseg O r1 (i * (nx + nu)) nx.
  Definition blk_u (r1 : vec T) (nx nu i : nat) : vec T := vseg O r1 (i * (nx + nu) + nx) nu.
  Definition blk_l (r2 : vec T) (nx i : nat) : vec T := vseg O r2 (i * nx) nx.

  (* h(i) = inv(L*L')*theta(i) - rx(i), riccati_linear_solver.cc:233-236, 257-261 *)
  Definition ric_h (st : rstage T) (th rx : vec T) : vec T :=
    vsub O (solve_llt (st_L st) th) rx.

  (* inv(SG)*(SM*inv(M)*h + ru), riccati_linear_solver.cc:242-249 *)
  Definition ric_tu (st : rstage T) (h ru : vec T) : vec T :=
    lsolve_vec O LA (st_SG st) (vadd O (mv O (st_SM st) (lsolve_vec O LA (st_M st) h)) ru).

  (* forward vector recursion, riccati_linear_solver.cc:232-262: theta(i), h(i) for i.. *)
  Fixpoint ric_forward (sts : list (rstage T)) (i : nat) (th : vec T) (r1 r2 : vec T)
           (nx nu : nat) : list (vec T * vec T) :=
    match sts with
    | [] => []
    | st :: sts' =>
        let h := ric_h st th (blk_x r1 nx nu i) in
        let tx := lsolve_vec O LA (st_M st) h in
        let tu := ric_tu st h (blk_u r1 nx nu i) in
        let th1 := vadd O (vadd O (mv O (st_P st) tu) (mv O (st_AM st) tx))
                          (blk_l r2 nx (S i)) in
        (th, h) :: ric_forward sts' (S i) th1 r1 r2 nx nu
    end.

  (* backward recursion, riccati_linear_solver.cc:267-285 (last stage) and 297-327;
     result: (x(i), u(i), l(i)) for i.. *)
  Fixpoint ric_backward (sts : list (rstage T)) (ths : list (vec T * vec T)) (i : nat)
           (r1 : vec T) (nx nu : nat) : list (vec T * vec T * vec T) :=
    match sts, ths with
    | st :: sts', (th, h) :: ths' =>
        let tail := ric_backward sts' ths' (S i) r1 nx nu in
        let tu0 := ric_tu st h (blk_u r1 nx nu i) in
        let tx0 := lsolve_vec O LA (st_M st) h in
        let '(x, u) :=
          match tail with
          | [] =>
              let u := ltsolve_vec O LA (st_SG st) tu0 in
              let x := vneg (ltsolve_vec O LA (st_M st)
                               (vadd O tx0 (mtv O (st_SM st) u))) in
              (x, u)
          | (_, _, l1) :: _ =>
              let u := ltsolve_vec O LA (st_SG st) (vadd O tu0 (mtv O (st_P st) l1)) in
              let x := vneg (ltsolve_vec O LA (st_M st)
                               (vadd O (vadd O tx0 (mtv O (st_SM st) u)) (mtv O (st_AM st) l1))) in
              (x, u)
          end in
        (* l(N) uses x + theta, l(i) uses theta + x (riccati_linear_solver.cc:282, 323) *)
        let t := match tail with [] => vadd O x th | _ => vadd O th x end in
        let l := vneg (solve_llt (st_L st) t) in
        (x, u, l) :: tail
    | _, _ => []
    end.

  (* (dz, dl) from r1, r2 *)
  Definition ric_vectors (sts : list (rstage T)) (r1 r2 : vec T) (nx nu : nat) : vec T * vec T :=
    let ths := ric_forward sts 0 (blk_l r2 nx 0) r1 r2 nx nu in
    let sol := ric_backward sts ths 0 r1 nx nu in
    (concat (map (fun s => fst (fst s) ++ snd (fst s)) sol), concat (map snd sol)).

  (* Solve, riccati_linear_solver.cc:212-344 *)
  Definition rc_solve (c : ricc T) (r : fres T D) (dx : option (fvar T D))
    : res (bool * fvar T D) :=
    match dx with
    | None => UB UBNull                       (* *dx is evaluated at line 213 *)
    | Some dx =>
        throw_unless (fr_same r dx) ESolverSize ;;
        d <- deref_checked (rc_data c) ;;
        let s := fr_r r in
        ub_unless ((length (r_v s) =? length (rc_mus c))%nat &&
                   (length (r_z s) =? rc_nz c)%nat && (length (r_l s) =? rc_nl c)%nat &&
                   (length (v_z (fv_x dx)) =? rc_nz c)%nat &&
                   (length (v_l (fv_x dx)) =? rc_nl c)%nat) UBSize ;;
        let r3 := vquot O (r_v s) (rc_mus c) in
        r1 <- mpc_gemvAT O d r3 (o_mone O) (o_one O) (r_z s) ;;
        let r2 := vopp O (r_l s) in
        let '(dz, dl) := ric_vectors (rc_ws c) r1 r2 (rc_nx c) (rc_nu c) in
        Adz <- mpc_gemvA O d dz (o_one O) (o_zero O) r3 ;;
        let dv := vadd O (r_v s) (tab (length (rc_gamma c)) (fun i =>
                    o_mul O (vget O (rc_gamma c) i) (vget O Adz i))) in
        let dv := vquot O dv (rc_mus c) in
        dy <- mpc_gemvA O d dz (o_mone O) (o_zero O) (v_y (fv_x dx)) ;;
        dy <- mpc_axpyb O d (o_one O) dy ;;
        Ok (true, fv_set dx (mkVar dz dl dv dy))
    end.

  Definition mpcLS : LSI T D (ricc T) :=
    mkLSI rc_setalpha rc_link rc_init (fun c r x => rc_solve c r (Some x)).
End Riccati.

(* ---------------- FBstabMpc ---------------- *)

(* fbstab_mpc.h:209-227 *)
Record mpc_solver (T : Type) : Type := mkMS {
  mps_N : Z; mps_nx : Z; mps_nu : Z; mps_nc : Z; mps_nz : Z; mps_nl : Z; mps_nv : Z;
  mps_alg : ast T (mpc_data T) (ricc T) }.
Arguments mkMS {T}. Arguments mps_N {T}. Arguments mps_nx {T}. Arguments mps_nu {T}.
Arguments mps_nc {T}. Arguments mps_nz {T}. Arguments mps_nl {T}. Arguments mps_nv {T}.
Arguments mps_alg {T}.

Section FBstabMpc.
  Context {T : Type} (O : Ops T) (LA : LinAlg T).

  (* constructor, fbstab_mpc.cc:61-89; nz_ etc. are int arithmetic (lines 70-72) *)
  Definition FBstabMpc_new (g : garbage T) (N nx nu nc : Z) : res (mpc_solver T) :=
    throw_unless (negb ((N <? 1)%Z || (nx <? 1)%Z || (nu <? 1)%Z || (nc <? 1)%Z)) ECtorSize ;;
    N1 <- iadd N 1 ;; w <- iadd nx nu ;;
    nz <- imul w N1 ;; nl <- imul nx N1 ;; nv <- imul nc N1 ;;
    x <- FullVariable_ctor O nz nl nv ;;
    r <- FullResidual_ctor O nz nl nv ;;
    ff <- FullFeasibility_ctor nz nl nv (g_tz g) (g_tl g) (g_tv g) ;;
    ls <- RiccatiLinearSolver_ctor O N nx nu nc (g_mat g) ;;
    Ok (mkMS N nx nu nc nz nl nv (FBstabAlgorithm_ctor O x x x x r r ls ff)).

  (* UpdateOptions, fbstab_mpc.cc:94-98 *)
  Definition FBstabMpc_UpdateOptions (s : mpc_solver T) (o : params T) : mpc_solver T * res unit :=
    match UpdateParameters O (a_opts (mps_alg s)) o with
    | Ok p => (mkMS (mps_N s) (mps_nx s) (mps_nu s) (mps_nc s) (mps_nz s) (mps_nl s) (mps_nv s)
                    (set_opts p (mps_alg s)), Ok tt)
    | Throw e => (s, Throw e)
    | UB u => (s, UB u)
    end.

  (* ValidateInputSizes, fbstab_mpc.h:229-242 *)
  Definition mpc_validate_inputs (s : mpc_solver T) (d : mpc_data T) (x : var T) : res unit :=
    throw_unless ((Z.of_nat (md_N d) =? mps_N s)%Z && (Z.of_nat (md_nx d) =? mps_nx s)%Z &&
                  (Z.of_nat (md_nu d) =? mps_nu s)%Z && (Z.of_nat (md_nc d) =? mps_nc s)%Z)
                 EInputSize ;;
    throw_unless ((Z.of_nat (length (v_z x)) =? mps_nz s)%Z &&
                  (Z.of_nat (length (v_l x)) =? mps_nl s)%Z &&
                  (Z.of_nat (length (v_v x)) =? mps_nv s)%Z &&
                  (Z.of_nat (length (v_y x)) =? mps_nv s)%Z) EInputSize.

  (* Solve on views (ProblemDataRef), fbstab_mpc.h:181-188 *)
  Definition FBstabMpc_Solve (s : mpc_solver T) (qp : mpc_ref T) (k : vkind) (x : var T)
             (elapsed : T) : mpc_solver T * solve_result T :=
    match MpcData_ctor O qp with
    | Throw e => (s, mkSR (Throw e) x [] [])
    | UB u => (s, mkSR (UB u) x [] [])
    | Ok d =>
        match mpc_validate_inputs s d x with
        | Throw e => (s, mkSR (Throw e) x [] [])
        | UB u => (s, mkSR (UB u) x [] [])
        | Ok _ =>
            let '(a, r) := call_solve O (mpcDI O) (mpcLS O LA) (mps_alg s) d k x elapsed in
            (mkMS (mps_N s) (mps_nx s) (mps_nu s) (mps_nc s) (mps_nz s) (mps_nl s) (mps_nv s) a, r)
        end
    end.

  (* Solve on owning sequences (ProblemData): the MpcData constructor template converts them *)
  Definition FBstabMpc_SolveOwned (s : mpc_solver T) (qp : mpc_own T) (k : vkind) (x : var T)
             (elapsed : T) : mpc_solver T * solve_result T :=
    FBstabMpc_Solve s (ref_of_own qp) k x elapsed.

  Definition mps_options (s : mpc_solver T) : params T := a_opts (mps_alg s).
End FBstabMpc.
