(* A pointer-free reading of the algorithm, used as an intermediate layer in proofs.
   [Refine.v] proves that the modelled FBstabAlgorithm::Solve computes exactly [psolve];
   nothing here is trusted. *)
From Verif Require Export DenseModel.

(* writer (prints, ghost trace) with exceptions *)
Definition W (T A : Type) : Type := (list (event T) * list (ghost T) * res A)%type.
Definition wret {T A} (a : A) : W T A := ([], [], Ok a).
Definition wbind {T A B} (m : W T A) (f : A -> W T B) : W T B :=
  let '(lg, tr, r) := m in
  match r with
  | Ok a => let '(lg2, tr2, r2) := f a in (lg ++ lg2, tr ++ tr2, r2)
  | Throw e => (lg, tr, Throw e)
  | UB u => (lg, tr, UB u)
  end.
Definition wlift {T A} (r : res A) : W T A := ([], [], r).
Definition wlog {T} (l : list (event T)) : W T unit := (l, [], Ok tt).
Definition wghost {T} (g : ghost T) : W T unit := ([], [g], Ok tt).

Declare Scope w_scope.
Delimit Scope w_scope with w.
Notation "x <<- m ;; k" := (wbind m (fun x => k))
  (at level 61, m at next level, right associativity) : w_scope.
Notation "m1 ;! m2" := (wbind m1 (fun _ => m2)) (at level 61, right associativity) : w_scope.

(* feasibility workspace *)
Definition ws (T : Type) : Type := (vec T * vec T * vec T)%type.

(* Everything the loops need to know about one problem under one option setting. *)
Record prob (T : Type) : Type := mkProb {
  pb_pnr : var T -> rsd T;                      (* penalised natural residual *)
  pb_inner : var T -> var T -> rsd T;           (* subproblem residual at x, centre xbar *)
  pb_newton : var T -> var T -> rsd T -> res (var T);
  pb_axpy : T -> var T -> var T -> var T;       (* this + a*x *)
  pb_margin : vec T -> vec T;                   (* b - A z as computed *)
  pb_feas : ws T -> var T -> ws T * feas_status;
  pb_combo : T }.
Arguments mkProb {T}. Arguments pb_pnr {T}. Arguments pb_inner {T}. Arguments pb_newton {T}.
Arguments pb_axpy {T}. Arguments pb_margin {T}. Arguments pb_feas {T}. Arguments pb_combo {T}.

Section Pure.
  Context {T : Type} (O : Ops T) (o : params T) (pb : prob T).
  Local Open Scope w_scope.

  Definition iter_line (prox newton : Z) (rk ri : rsd T) (itol : T) : list (event T) :=
    if is_iter (p_display o)
    then [EvIterLine prox newton (r_zn rk) (r_ln rk) (r_vn rk) (rsd_norm O ri) itol] else [].
  Definition iter_header : list (event T) :=
    if is_iter (p_display o) then [EvIterHeader] else [].
  Definition det_header (prox newton : Z) (rk : rsd T) : list (event T) :=
    if is_det (p_display o) then [EvDetHeader prox newton (rsd_norm O rk)] else [].
  Definition det_line (i : Z) (t : T) (ri : rsd T) : list (event T) :=
    if is_det (p_display o) then [EvDetLine i t (r_zn ri) (r_ln ri) (r_vn ri)] else [].
  Definition det_footer (ri : rsd T) (tol : T) : list (event T) :=
    if is_det (p_display o) then [EvDetFooter (rsd_norm O ri) tol] else [].
  Definition final_line (e : exit_flag) (ms : T) (prox newton : Z) (rk : rsd T) : list (event T) :=
    if ge_final (p_display o)
    then [EvFinal e ms prox (p_max_prox o) newton (p_max_newton o)
            (r_zn rk) (r_ln rk) (r_vn rk) (pb_combo pb)] else [].

  Definition poutput (e : exit_flag) (elapsed E0 : T) (newton prox : Z) (rk : rsd T)
    : W T (solver_out T) :=
    wlog (final_line e (o_mul O (o_dec O 1000 0) elapsed) prox newton rk) ;!
    wret (mkOut e (rsd_norm O rk) newton prox elapsed E0).

  Fixpoint pls (fuel j : nat) (t m0 cm : T) (x xbar dx : var T) (ri : rsd T)
    : W T (T * nat * bool * rsd T) :=
    match fuel with
    | 0%nat => wret (t, j, false, ri)
    | S fuel' =>
        let xp := pb_axpy pb t dx x in
        let ri := pb_inner pb xp xbar in
        let mp := rsd_merit O ri in
        wghost (GMerit xp mp) ;!
        if o_leb O mp (o_sub O m0 (o_mul O (o_mul O (o_mul O (o_two O) t) (p_eta o)) cm))
        then wret (t, j, true, ri)
        else pls fuel' (S j) (o_mul O t (p_beta o)) m0 cm x xbar dx ri
    end.

  Definition pstep (x xbar : var T) (ri : rsd T) (merit : list T)
    : W T (T * var T * var T * rsd T * list T) :=
    dx <<- wlift (pb_newton pb x xbar (rsd_neg O ri)) ;;
    wghost (GLin x xbar) ;!
    let cm := rsd_merit O ri in
    let merit := InsertMerit cm merit in
    let m0 := if p_nonmonotone o then MaxMerit O merit else cm in
    tj <<- pls (Z.to_nat (p_max_ls o)) 0 (o_one O) m0 cm x xbar dx (rsd_neg O ri) ;;
    let '(t, j, acc, ri) := tj in
    let x' := pb_axpy pb t dx x in
    wghost (GStep x dx cm m0 t j acc x') ;!
    wret (t, x', dx, ri, merit).

  (* returns (Eo, x, dx, ri, rk, newton) *)
  Fixpoint pinner (fuel : nat) (i : Z) (t Eo tol Ek : T) (x xbar dx : var T) (ri rk : rsd T)
           (newton : Z) (merit : list T)
    : W T (T * var T * var T * rsd T * rsd T * Z) :=
    match fuel with
    | 0%nat => wret (Eo, x, dx, ri, rk, newton)
    | S fuel' =>
        let ri := pb_inner pb x xbar in
        let rk := pb_pnr pb x in
        let Ei := rsd_norm O ri in
        let Eo := rsd_norm O rk in
        wghost (GInner x Ei Eo) ;!
        if (o_leb O Ei tol && o_ltb O Eo Ek) || o_leb O Ei (p_inner_tol_min o)
        then wlog (det_line i t ri ++ det_footer ri tol) ;! wret (Eo, x, dx, ri, rk, newton)
        else
          wlog (det_line i t ri) ;!
          if (p_max_newton o <=? newton)%Z then wret (Eo, x, dx, ri, rk, newton)
          else
            st <<- pstep x xbar ri merit ;;
            let '(t, x', dx, ri, merit) := st in
            pinner fuel' (i + 1)%Z t Eo tol Ek x' xbar dx ri rk (newton + 1)%Z merit
    end.

  Definition psub (tol Ek : T) (xk dx : var T) (ri rk : rsd T) (newton : Z)
    : W T (T * var T * var T * rsd T * rsd T * Z) :=
    r <<- pinner (Z.to_nat (p_max_inner o)) 0%Z (o_one O) (o_zero O) tol Ek xk xk dx ri rk newton
                 (repeat (o_zero O) 5) ;;
    let '(Eo, x, dx, ri, rk, newton) := r in
    let x := proj_duals O x in
    wghost (GProject x) ;!
    wret (Eo, x, dx, ri, rk, newton).

  (* returns the output record and the variable written back to the caller *)
  Fixpoint pprox (elapsed E0 : T) (fuel : nat) (inner_tol : T) (xk dx : var T) (ri rk : rsd T)
           (w : ws T) (newton prox : Z) : W T (solver_out T * var T) :=
    match fuel with
    | 0%nat =>
        out <<- poutput MAXITERATIONS elapsed E0 newton prox rk ;; wret (out, xk)
    | S fuel' =>
        let rk := pb_pnr pb xk in
        let Ek := rsd_norm O rk in
        if o_leb O Ek (pb_combo pb) || o_leb O (var_norm O dx) (p_stall_tol o)
        then
          wlog (iter_line prox newton rk ri inner_tol) ;!
          out <<- poutput SUCCESS elapsed E0 newton prox rk ;; wret (out, xk)
        else
          wlog (det_header prox newton rk ++ iter_line prox newton rk ri inner_tol) ;!
          itol <<- wlift (saturate O (o_mul O inner_tol (p_delta o)) (p_inner_tol_min o) Ek) ;;
          wghost (GSub inner_tol itol Ek xk) ;!
          r <<- psub itol Ek xk dx ri rk newton ;;
          let '(Eo, xi, dx, ri, rk, newton) := r in
          if (p_max_newton o <=? newton)%Z
          then
            let xr := if o_ltb O Eo Ek then xi else xk in
            out <<- poutput MAXITERATIONS elapsed E0 newton prox (pb_pnr pb xr) ;;
            wret (out, xr)
          else
            let dx := pb_axpy pb (o_mone O) xk xi in
            wghost (GProx dx) ;!
            let '(w, fs) := if p_check_feas o then pb_feas pb w dx else (w, FS_FEASIBLE) in
            match flag_of fs with
            | SUCCESS => pprox elapsed E0 fuel' itol xi dx ri rk w newton (prox + 1)%Z
            | ef => out <<- poutput ef elapsed E0 newton prox rk ;; wret (out, dx)
            end
    end.

  (* the initial proximal iterate: the caller's z, l, v; y recomputed *)
  Definition pstart (c : var T) : var T := mkVar (v_z c) (v_l c) (v_v c) (pb_margin pb (v_z c)).
  (* dx_.Fill(1.0) *)
  Definition pones (nz nl nv : nat) : var T :=
    let z := vconst nz (o_one O) in
    mkVar z (vconst nl (o_one O)) (vconst nv (o_one O)) (pb_margin pb z).

  (* [stale]: cached norms left in ri_ by the previous Solve; [w]: feasibility workspace *)
  Definition psolve (nz nl nv : nat) (elapsed : T) (stale : rsd T) (w : ws T) (c : var T)
    : W T (solver_out T * var T) :=
    let xk := pstart c in
    let rk := pb_pnr pb xk in
    let E0 := rsd_norm O rk in
    inner_tol <<- wlift (saturate O E0 (p_inner_tol_min o) (p_inner_tol_max o)) ;;
    wlog iter_header ;!
    pprox elapsed E0 (Z.to_nat (p_max_prox o)) inner_tol xk (pones nz nl nv) stale rk w 0%Z 0%Z.
End Pure.

(* The problem data of a Solve call as a [prob]. *)
Definition unres {A} (dflt : A) (r : res A) : A := match r with Ok a => a | _ => dflt end.

Section OfData.
  Context {T D : Type} (O : Ops T) (DI : DataI T D) (d : D).
  Notation vg := (vget O).
  Definition gH x a b y := unres [] (di_gemvH DI d x a b y).
  Definition gA x a b y := unres [] (di_gemvA DI d x a b y).
  Definition gG x a b y := unres [] (di_gemvG DI d x a b y).
  Definition gAT x a b y := unres [] (di_gemvAT DI d x a b y).
  Definition gGT x a b y := unres [] (di_gemvGT DI d x a b y).
  Definition af a y := unres [] (di_axpyf DI d a y).
  Definition ah a y := unres [] (di_axpyh DI d a y).
  Definition ab a y := unres [] (di_axpyb DI d a y).

  Notation "0" := (o_zero O). Notation "1" := (o_one O).
  Infix "+" := (o_add O). Infix "-" := (o_sub O). Infix "*" := (o_mul O).

  Definition pmargin (nv : nat) (z : vec T) : vec T := gA z (o_mone O) 1 (ab 1 (vconst nv 0)).
  Definition paxpy (a : T) (x this : var T) : var T :=
    mkVar (vaxpy O a (v_z x) (v_z this)) (vaxpy O a (v_l x) (v_l this))
          (vaxpy O a (v_v x) (v_v this)) (ab (o_opp O a) (vaxpy O a (v_y x) (v_y this))).
  Definition stat_z (nz : nat) (x : var T) : vec T :=
    gAT (v_v x) 1 1 (gGT (v_l x) 1 1 (gH (v_z x) 1 1 (af 1 (vconst nz 0)))).
  Definition stat_l (nl : nat) (x : var T) : vec T := gG (v_z x) (o_mone O) 1 (ah 1 (vconst nl 0)).
  Definition pinnerr (nz nl nv : nat) (alpha sigma : T) (x xbar : var T) : rsd T :=
    mk_rsd O (vaxpy O sigma (vsub O (v_z x) (v_z xbar)) (stat_z nz x))
             (vaxpy O sigma (vsub O (v_l x) (v_l xbar)) (stat_l nl x))
             (tab nv (fun i =>
                pfb O (vg (v_y x) i + sigma * (vg (v_v x) i - vg (v_v xbar) i)) (vg (v_v x) i) alpha)).
  Definition ppnr (nz nl nv : nat) (alpha : T) (x : var T) : rsd T :=
    mk_rsd O (stat_z nz x) (stat_l nl x)
             (tab nv (fun i =>
                alpha * smin O (vg (v_y x) i) (vg (v_v x) i) +
                (1 - alpha) * smax O 0 (vg (v_y x) i) * smax O 0 (vg (v_v x) i))).

  (* CheckFeasibility: workspace in, workspace and verdict out *)
  Definition dual_bad (tol : T) (Az Gz Hz : vec T) (fz : T) (z : vec T) : bool :=
    let wn := vinf O z in
    o_leb O (o_maxc O Az) (wn * tol) && o_leb O (vinf O Gz) (tol * wn) &&
    o_leb O (vinf O Hz) (tol * wn) && o_ltb O fz 0 && o_ltb O (o_dec O 1 (-14)) wn.
  Definition primal_bad (tol : T) (ATv : vec T) (bv : T) (x : var T) : bool :=
    let u := smax O (vinf O (v_v x)) (vinf O (v_l x)) in
    o_leb O (vinf O ATv) (tol * u) && o_ltb O bv 0.
  Definition verdict (pbad dbad : bool) : feas_status :=
    if pbad then (if dbad then FS_BOTH else FS_PRIMAL)
    else (if dbad then FS_DUAL else FS_FEASIBLE).
  Definition pfeas (nz nl nv : nat) (tol : T) (w : ws T) (x : var T) : ws T * feas_status :=
    let '(tz, tl, tv) := w in
    let tv1 := gA (v_z x) 1 0 tv in
    let tl1 := gG (v_z x) 1 0 tl in
    let tz1 := gH (v_z x) 1 0 tz in
    let fv := af 1 (vconst nz 0) in
    let tz2 := gGT (v_l x) 1 1 (gAT (v_v x) 1 1 (vconst nz 0)) in
    let bv := ab 1 (vconst nv 0) in
    let hv := ah 1 (vconst nl 0) in
    ((tz2, hv, bv),
     verdict (primal_bad tol tz2 (vdot O hv (v_l x) + vdot O bv (v_v x)) x)
             (dual_bad tol tv1 tl1 tz1 (vdot O fv (v_z x)) (v_z x))).

  Definition pnewton (pinit : T -> T -> var T -> var T -> res bool)
             (pst : T -> T -> var T -> var T -> rsd T -> var T)
             (alpha sigma : T) (x xbar : var T) (r : rsd T) : res (var T) :=
    match pinit alpha sigma x xbar with
    | Ok true => Ok (pst alpha sigma x xbar r)
    | Ok false => Throw EInitFailed
    | Throw e => Throw e
    | UB u => UB u
    end.

  Definition prob_of (nz nl nv : nat)
             (pinit : T -> T -> var T -> var T -> res bool)
             (pst : T -> T -> var T -> var T -> rsd T -> var T) (o : params T) : prob T :=
    mkProb (ppnr nz nl nv (p_alpha o))
           (pinnerr nz nl nv (p_alpha o) (p_sigma0 o))
           (fun x xbar r => pnewton pinit pst (p_alpha o) (p_sigma0 o) x xbar r)
           paxpy (pmargin nv) (pfeas nz nl nv (p_infeas_tol o)) (combo_of O DI o d).
End OfData.
