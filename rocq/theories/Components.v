(* FullVariable, FullResidual, FullFeasibility over an abstract Data class. *)
From Verif Require Export Params.
Local Open Scope res_scope.

(* abstract_components.h:24-62, class Data: the methods the components call.  A size mismatch
   is an exception in MpcData and undefined behaviour in DenseData; the record hides which. *)
Record DataI (T D : Type) : Type := mkDataI {
  di_gemvH  : D -> vec T -> T -> T -> vec T -> res (vec T);   (* y <- a*H*x + b*y *)
  di_gemvA  : D -> vec T -> T -> T -> vec T -> res (vec T);
  di_gemvG  : D -> vec T -> T -> T -> vec T -> res (vec T);
  di_gemvAT : D -> vec T -> T -> T -> vec T -> res (vec T);
  di_gemvGT : D -> vec T -> T -> T -> vec T -> res (vec T);
  di_axpyf  : D -> T -> vec T -> res (vec T);                 (* y <- a*f + y *)
  di_axpyh  : D -> T -> vec T -> res (vec T);
  di_axpyb  : D -> T -> vec T -> res (vec T);
  di_fnorm  : D -> T                                          (* ForcingNorm() *)
}.
Arguments mkDataI {T D}.
Arguments di_gemvH {T D}. Arguments di_gemvA {T D}. Arguments di_gemvG {T D}.
Arguments di_gemvAT {T D}. Arguments di_gemvGT {T D}. Arguments di_axpyf {T D}.
Arguments di_axpyh {T D}. Arguments di_axpyb {T D}. Arguments di_fnorm {T D}.

(* The four vectors of a primal-dual variable (full_variable.h: z_, l_, v_, y_). *)
Record var (T : Type) : Type := mkVar { v_z : vec T; v_l : vec T; v_v : vec T; v_y : vec T }.
Arguments mkVar {T}. Arguments v_z {T}. Arguments v_l {T}. Arguments v_v {T}. Arguments v_y {T}.

(* FullVariable: full_variable.h, private members. *)
Record fvar (T D : Type) : Type := mkFvar {
  fv_nz : nat; fv_nl : nat; fv_nv : nat; fv_x : var T; fv_data : dptr D }.
Arguments mkFvar {T D}. Arguments fv_nz {T D}. Arguments fv_nl {T D}. Arguments fv_nv {T D}.
Arguments fv_x {T D}. Arguments fv_data {T D}.

(* The numeric content of a residual (full_residual.h: z_, l_, v_ and the cached norms). *)
Record rsd (T : Type) : Type := mkRsd {
  r_z : vec T; r_l : vec T; r_v : vec T; r_zn : T; r_ln : T; r_vn : T }.
Arguments mkRsd {T}. Arguments r_z {T}. Arguments r_l {T}. Arguments r_v {T}.
Arguments r_zn {T}. Arguments r_ln {T}. Arguments r_vn {T}.

(* FullResidual *)
Record fres (T D : Type) : Type := mkFres {
  fr_nz : nat; fr_nl : nat; fr_nv : nat; fr_r : rsd T; fr_alpha : T; fr_data : dptr D }.
Arguments mkFres {T D}. Arguments fr_nz {T D}. Arguments fr_nl {T D}. Arguments fr_nv {T D}.
Arguments fr_r {T D}. Arguments fr_alpha {T D}. Arguments fr_data {T D}.

(* FullFeasibility with its workspaces tz_, tl_, tv_ *)
Record ffeas (T D : Type) : Type := mkFfeas {
  ff_nz : nat; ff_nl : nat; ff_nv : nat;
  ff_tz : vec T; ff_tl : vec T; ff_tv : vec T; ff_data : dptr D }.
Arguments mkFfeas {T D}. Arguments ff_nz {T D}. Arguments ff_nl {T D}. Arguments ff_nv {T D}.
Arguments ff_tz {T D}. Arguments ff_tl {T D}. Arguments ff_tv {T D}. Arguments ff_data {T D}.

(* abstract_components.h:241-246, FeasibilityResidual::FeasibilityStatus *)
Inductive feas_status : Type := FS_FEASIBLE | FS_PRIMAL | FS_DUAL | FS_BOTH.

Section Components.
  Context {T D : Type} (O : Ops T) (DI : DataI T D).

  Notation "0" := (o_zero O). Notation "1" := (o_one O).
  Infix "+" := (o_add O). Infix "-" := (o_sub O). Infix "*" := (o_mul O).
  Notation vg := (vget O).

  (* ---------------- FullVariable ---------------- *)

  (* constructor, full_variable.cc:14-38 *)
  Definition FullVariable_ctor (nz nl nv : Z) : res (fvar T D) :=
    throw_unless (negb ((nz <=? 0)%Z || (nl <? 0)%Z || (nv <=? 0)%Z)) ECtorSize ;;
    let n := Z.to_nat nz in let p := Z.to_nat nl in let q := Z.to_nat nv in
    Ok (mkFvar n p q (mkVar (vconst n 0) (vconst p 0) (vconst q 0) (vconst q 0)) PNull).

  (* LinkData, full_variable.h *)
  Definition fv_link (p : dptr D) (x : fvar T D) : fvar T D :=
    mkFvar (fv_nz x) (fv_nl x) (fv_nv x) (fv_x x) p.

  Definition fv_set (x : fvar T D) (w : var T) : fvar T D :=
    mkFvar (fv_nz x) (fv_nl x) (fv_nv x) w (fv_data x).

  (* InitializeConstraintMargin, full_variable.cc:47-53: y = b - A*z *)
  Definition fv_margin (x : fvar T D) : res (fvar T D) :=
    d <- deref_checked (fv_data x) ;;
    let w := fv_x x in
    y <- di_axpyb DI d 1 (vconst (length (v_y w)) 0) ;;
    y <- di_gemvA DI d (v_z w) (o_mone O) 1 y ;;
    Ok (fv_set x (mkVar (v_z w) (v_l w) (v_v w) y)).

  (* Fill, full_variable.cc:40-45.  If the data is not linked the C++ has already overwritten
     z,l,v when it throws; the model keeps the old value (not observable through the solvers). *)
  Definition fv_fill (a : T) (x : fvar T D) : res (fvar T D) :=
    let w := fv_x x in
    fv_margin (fv_set x (mkVar (vconst (length (v_z w)) a) (vconst (length (v_l w)) a)
                               (vconst (length (v_v w)) a) (v_y w))).

  (* axpy, full_variable.cc:55-65:  this <- this + a*x, with y <- y + a*(x.y - b) *)
  Definition fv_axpy (a : T) (x this : fvar T D) : res (fvar T D) :=
    d <- deref_checked (fv_data this) ;;
    let w := fv_x this in let u := fv_x x in
    ub_unless ((length (v_z u) =? length (v_z w)) && (length (v_l u) =? length (v_l w)) &&
               (length (v_v u) =? length (v_v w)) && (length (v_y u) =? length (v_y w)))
              UBSize ;;
    let y := vaxpy O a (v_y u) (v_y w) in
    y <- di_axpyb DI d (o_opp O a) y ;;
    Ok (fv_set this (mkVar (vaxpy O a (v_z u) (v_z w)) (vaxpy O a (v_l u) (v_l w))
                           (vaxpy O a (v_v u) (v_v w)) y)).

  (* Copy, full_variable.cc:67-73: copies the four vectors and the data pointer (Eigen
     assignment resizes), not nz_, nl_, nv_. *)
  Definition fv_copy (x this : fvar T D) : fvar T D :=
    mkFvar (fv_nz this) (fv_nl this) (fv_nv this) (fv_x x) (fv_data x).

  (* ProjectDuals, full_variable.cc:75: v = v.cwiseMax(0) *)
  Definition proj_duals (w : var T) : var T :=
    mkVar (v_z w) (v_l w) (tab (length (v_v w)) (fun i => smax O (vg (v_v w) i) 0)) (v_y w).
  Definition fv_project (x : fvar T D) : fvar T D := fv_set x (proj_duals (fv_x x)).

  (* Norm, full_variable.cc:77-83 *)
  Definition var_norm (w : var T) : T :=
    let t1 := vnorm O (v_z w) in
    let t2 := vnorm O (v_l w) in
    let t3 := vnorm O (v_v w) in
    o_sqrt O (t1 * t1 + t2 * t2 + t3 * t3).
  Definition fv_norm (x : fvar T D) : T := var_norm (fv_x x).

  (* SameSize, full_variable.cc:85-87 *)
  Definition fv_same (this x : fvar T D) : bool :=
    (fv_nz x =? fv_nz this) && (fv_nl x =? fv_nl this) && (fv_nv x =? fv_nv this).

  (* ---------------- FullResidual ---------------- *)

  (* constructor, full_residual.cc:12-26; alpha_ = 0.95, cached norms 0.0 (full_residual.h) *)
  Definition FullResidual_ctor (nz nl nv : Z) : res (fres T D) :=
    throw_unless (negb ((nz <=? 0)%Z || (nl <? 0)%Z || (nv <=? 0)%Z)) ECtorSize ;;
    let n := Z.to_nat nz in let p := Z.to_nat nl in let q := Z.to_nat nv in
    Ok (mkFres n p q (mkRsd (vconst n 0) (vconst p 0) (vconst q 0) 0 0 0)
               (o_dec O 95 (-2)) PNull).

  Definition fr_link (p : dptr D) (r : fres T D) : fres T D :=
    mkFres (fr_nz r) (fr_nl r) (fr_nv r) (fr_r r) (fr_alpha r) p.
  Definition fr_setalpha (a : T) (r : fres T D) : fres T D :=
    mkFres (fr_nz r) (fr_nl r) (fr_nv r) (fr_r r) a (fr_data r).
  Definition fr_set (r : fres T D) (s : rsd T) : fres T D :=
    mkFres (fr_nz r) (fr_nl r) (fr_nv r) s (fr_alpha r) (fr_data r).

  (* Fill, full_residual.cc:28-32 (the cached norms are not touched) *)
  Definition fr_fill (a : T) (r : fres T D) : fres T D :=
    let s := fr_r r in
    fr_set r (mkRsd (vconst (length (r_z s)) a) (vconst (length (r_l s)) a)
                    (vconst (length (r_v s)) a) (r_zn s) (r_ln s) (r_vn s)).

  (* Negate, full_residual.cc:34-38 *)
  Definition rsd_neg (s : rsd T) : rsd T :=
    mkRsd (vscale O (o_mone O) (r_z s)) (vscale O (o_mone O) (r_l s))
          (vscale O (o_mone O) (r_v s)) (r_zn s) (r_ln s) (r_vn s).
  Definition fr_neg (r : fres T D) : fres T D := fr_set r (rsd_neg (fr_r r)).

  (* Norm, full_residual.cc:40-42 (from the cached norms) *)
  Definition rsd_norm (s : rsd T) : T :=
    o_sqrt O (r_zn s * r_zn s + r_ln s * r_ln s + r_vn s * r_vn s).
  (* Merit, full_residual.cc:44-47 *)
  Definition rsd_merit (s : rsd T) : T :=
    let t := rsd_norm s in o_half O * t * t.

  (* pfb, full_residual.cc:115-118 *)
  Definition pfb (a b alpha : T) : T :=
    let fb := a + b - o_sqrt O (a * a + b * b) in
    alpha * fb + (1 - alpha) * smax O 0 a * smax O 0 b.

  (* assembling z_, l_, v_ and refreshing the cached norms *)
  Definition mk_rsd (z l v : vec T) : rsd T :=
    mkRsd z l v (vnorm O z) (vnorm O l) (vnorm O v).

  (* InnerResidual, full_residual.cc:49-74.  z_, l_ and v_ keep their own lengths; adding
     sigma*(x.z - xbar.z) requires equal lengths (Eigen), the loop reads y(i), v(i) for
     i < nv_. *)
  Definition fr_inner (x xbar : fvar T D) (sigma : T) (r : fres T D) : res (fres T D) :=
    d <- deref_checked (fr_data r) ;;
    let w := fv_x x in let wb := fv_x xbar in let s := fr_r r in
    z <- di_axpyf DI d 1 (vconst (length (r_z s)) 0) ;;
    z <- di_gemvH DI d (v_z w) 1 1 z ;;
    z <- di_gemvGT DI d (v_l w) 1 1 z ;;
    z <- di_gemvAT DI d (v_v w) 1 1 z ;;
    ub_unless ((length (v_z w) =? length (v_z wb)) && (length (v_z w) =? length z)) UBSize ;;
    let z := vaxpy O sigma (vsub O (v_z w) (v_z wb)) z in
    l <- di_axpyh DI d 1 (vconst (length (r_l s)) 0) ;;
    l <- di_gemvG DI d (v_z w) (o_mone O) 1 l ;;
    ub_unless ((length (v_l w) =? length (v_l wb)) && (length (v_l w) =? length l)) UBSize ;;
    let l := vaxpy O sigma (vsub O (v_l w) (v_l wb)) l in
    ub_unless ((fr_nv r <=? length (v_y w)) && (fr_nv r <=? length (v_v w)) &&
               (fr_nv r <=? length (v_v wb)) && (fr_nv r =? length (r_v s))) UBSize ;;
    let v := tab (fr_nv r) (fun i =>
               let ys := vg (v_y w) i + sigma * (vg (v_v w) i - vg (v_v wb) i) in
               pfb ys (vg (v_v w) i) (fr_alpha r)) in
    Ok (fr_set r (mk_rsd z l v)).

  (* NaturalResidual, full_residual.cc:76-97 *)
  Definition fr_natural (x : fvar T D) (r : fres T D) : res (fres T D) :=
    d <- deref_checked (fr_data r) ;;
    let w := fv_x x in let s := fr_r r in
    z <- di_axpyf DI d 1 (vconst (length (r_z s)) 0) ;;
    z <- di_gemvH DI d (v_z w) 1 1 z ;;
    z <- di_gemvGT DI d (v_l w) 1 1 z ;;
    z <- di_gemvAT DI d (v_v w) 1 1 z ;;
    l <- di_axpyh DI d 1 (vconst (length (r_l s)) 0) ;;
    l <- di_gemvG DI d (v_z w) (o_mone O) 1 l ;;
    ub_unless ((fr_nv r <=? length (v_y w)) && (fr_nv r <=? length (v_v w)) &&
               (fr_nv r =? length (r_v s))) UBSize ;;
    let v := tab (fr_nv r) (fun i => smin O (vg (v_y w) i) (vg (v_v w) i)) in
    Ok (fr_set r (mk_rsd z l v)).

  (* PenalizedNaturalResidual, full_residual.cc:99-109 *)
  Definition fr_pnr (x : fvar T D) (r : fres T D) : res (fres T D) :=
    r1 <- fr_natural x r ;;
    let w := fv_x x in let s := fr_r r1 in
    let v := tab (fr_nv r1) (fun i =>
               fr_alpha r1 * vg (r_v s) i +
               (1 - fr_alpha r1) * smax O 0 (vg (v_y w) i) * smax O 0 (vg (v_v w) i)) in
    Ok (fr_set r1 (mk_rsd (r_z s) (r_l s) v)).

  (* SameSize, full_residual.cc:111-113 *)
  Definition fr_same (r : fres T D) (x : fvar T D) : bool :=
    (fv_nz x =? fr_nz r) && (fv_nl x =? fr_nl r) && (fv_nv x =? fr_nv r).

  (* ---------------- FullFeasibility ---------------- *)

  (* constructor, full_feasibility.cc:12-23.  VectorXd::resize does not initialise: the initial
     workspace content is an arbitrary input [gz gl gv] of the model. *)
  Definition FullFeasibility_ctor (nz nl nv : Z) (gz gl gv : nat -> T) : res (ffeas T D) :=
    throw_unless (negb ((nz <=? 0)%Z || (nl <? 0)%Z || (nv <=? 0)%Z)) ECtorSize ;;
    let n := Z.to_nat nz in let p := Z.to_nat nl in let q := Z.to_nat nv in
    Ok (mkFfeas n p q (tab n gz) (tab p gl) (tab q gv) PNull).

  Definition ff_link (p : dptr D) (f : ffeas T D) : ffeas T D :=
    mkFfeas (ff_nz f) (ff_nl f) (ff_nv f) (ff_tz f) (ff_tl f) (ff_tv f) p.

  (* CheckFeasibility, full_feasibility.cc:25-88.  maxCoeff of an empty vector and dot of
     different sizes are undefined. *)
  Definition ff_check (x : fvar T D) (tol : T) (f : ffeas T D) : res (ffeas T D * feas_status) :=
    d <- deref_checked (ff_data f) ;;
    let w := fv_x x in
    tv <- di_gemvA DI d (v_z w) 1 0 (ff_tv f) ;;
    ub_unless (0 <? length tv)%nat UBSize ;;
    let d1 := o_maxc O tv in
    tl <- di_gemvG DI d (v_z w) 1 0 (ff_tl f) ;;
    let d2 := vinf O tl in
    tz <- di_gemvH DI d (v_z w) 1 0 (ff_tz f) ;;
    let d3 := vinf O tz in
    tz <- di_axpyf DI d 1 (vconst (length tz) 0) ;;
    ub_unless (length tz =? length (v_z w))%nat UBSize ;;
    let d4 := vdot O tz (v_z w) in
    let wn := vinf O (v_z w) in
    let dual_feasible :=
      negb (o_leb O d1 (wn * tol) && o_leb O d2 (tol * wn) && o_leb O d3 (tol * wn) &&
            o_ltb O d4 0 && o_ltb O (o_dec O 1 (-14)) wn) in
    tz <- di_gemvAT DI d (v_v w) 1 1 (vconst (length tz) 0) ;;
    tz <- di_gemvGT DI d (v_l w) 1 1 tz ;;
    let p1 := vinf O tz in
    tv <- di_axpyb DI d 1 (vconst (length tv) 0) ;;
    tl <- di_axpyh DI d 1 (vconst (length tl) 0) ;;
    ub_unless ((length tl =? length (v_l w)) && (length tv =? length (v_v w)))%nat UBSize ;;
    let p2 := vdot O tl (v_l w) + vdot O tv (v_v w) in
    let u := smax O (vinf O (v_v w)) (vinf O (v_l w)) in
    let primal_feasible := negb (o_leb O p1 (tol * u) && o_ltb O p2 0) in
    Ok (mkFfeas (ff_nz f) (ff_nl f) (ff_nv f) tz tl tv (ff_data f),
        if primal_feasible && dual_feasible then FS_FEASIBLE
        else if primal_feasible && negb dual_feasible then FS_DUAL
        else if negb primal_feasible && dual_feasible then FS_PRIMAL
        else FS_BOTH).
End Components.
