(* Vocabulary of the property statements about Solve: everything is phrased with the public
   component methods of the modelled code (FullVariable, FullResidual, FullFeasibility applied
   to freshly made objects linked to the problem data), for any data class and any arithmetic.
   What these methods compute mathematically is the subject of the theorems over the reals. *)
From Verif Require Export CallFacts.

Section Spec.
  Context {T D : Type} (O : Ops T) (DI : DataI T D) (d : D) (nz nl nv : nat).

  (* a FullVariable of sizes nz,nl,nv holding x, linked to the data *)
  Definition at_point (x : var T) : fvar T D := mkFvar nz nl nv x (PLive d).
  (* a FullResidual of sizes nz,nl,nv with penalty weight alpha, linked to the data *)
  Definition blank_residual (alpha : T) : fres T D :=
    mkFres nz nl nv
      (mkRsd (vconst nz (o_zero O)) (vconst nl (o_zero O)) (vconst nv (o_zero O))
             (o_zero O) (o_zero O) (o_zero O)) alpha (PLive d).

  (* PenalizedNaturalResidual(x) then Norm() *)
  Definition kkt_residual (alpha : T) (x : var T) : res T :=
    (r <- fr_pnr O DI (at_point x) (blank_residual alpha) ;; Ok (rsd_norm O (fr_r r)))%res.
  (* InnerResidual(x, xbar, sigma) then Norm() *)
  Definition sub_residual (alpha sigma : T) (x xbar : var T) : res T :=
    (r <- fr_inner O DI (at_point x) (at_point xbar) sigma (blank_residual alpha) ;;
     Ok (rsd_norm O (fr_r r)))%res.
  (* InnerResidual(x, xbar, sigma) then Merit() *)
  Definition sub_merit (alpha sigma : T) (x xbar : var T) : res T :=
    (r <- fr_inner O DI (at_point x) (at_point xbar) sigma (blank_residual alpha) ;;
     Ok (rsd_merit O (fr_r r)))%res.
  (* the caller's z, l, v with the constraint margin y recomputed (InitializeConstraintMargin) *)
  Definition start_point (x : var T) : res (var T) :=
    (w <- fv_margin O DI (at_point (mkVar (v_z x) (v_l x) (v_v x) (vconst nv (o_zero O)))) ;;
     Ok (fv_x w))%res.
  (* x + t*dx (axpy) *)
  Definition move (t : T) (dx x : var T) : res (var T) :=
    (w <- fv_axpy O DI t (at_point dx) (at_point x) ;; Ok (fv_x w))%res.
  (* CheckFeasibility(x, tol) of a FullFeasibility whose workspace holds (tz,tl,tv) *)
  Definition feasibility_test (tz tl tv : vec T) (tol : T) (x : var T) : res feas_status :=
    (c <- ff_check O DI (at_point x) tol (mkFfeas nz nl nv tz tl tv (PLive d)) ;; Ok (snd c))%res.
  (* abs_tol + rel_tol*(1+||(f,h,b)||) *)
  Definition tolerance (o : params T) : T :=
    o_add O (p_abs_tol o) (o_mul O (p_rel_tol o) (o_add O (o_one O) (di_fnorm DI d))).
  (* the vector of all ones the algorithm starts its "last step" from *)
  Definition all_ones : var T :=
    mkVar (vconst nz (o_one O)) (vconst nl (o_one O)) (vconst nv (o_one O)) [].
End Spec.

(* ---------- bridges to the pure description ---------- *)
Section Bridge.
  Context {T : Type} (O : Ops T).
  Context {D : Type} (DI : DataI T D) (d : D) (nz nl nv : nat) (o : params T) (x : var T) (el : T)
          (r : solve_result T) (pinit : T -> T -> var T -> var T -> res bool)
          (pst : T -> T -> var T -> var T -> rsd T -> var T) (stale : rsd T) (w : ws T).
  Hypothesis CD : call_desc O DI d nz nl nv o x el r pinit pst stale w.
  Notation pb := (prob_of O DI d nz nl nv pinit pst o).
  Notation vok := (var_ok nz nl nv).
  Let HD : DataOk DI d nz nl nv := cd_data _ _ _ _ _ _ _ _ _ _ _ _ _ _ CD.

  Lemma blank_rok : rsd_ok nz nl nv (mkRsd (vconst nz (o_zero O)) (vconst nl (o_zero O)) (vconst nv (o_zero O))
             (o_zero O) (o_zero O) (o_zero O)).
  Proof. unfold rsd_ok; cbn. autorewrite with vlen. auto. Qed.

  Lemma br_resid y : vok y -> kkt_residual O DI d nz nl nv (p_alpha o) y = Ok (rsd_norm O (pb_pnr pb y)).
  Proof.
    intro Hy. unfold kkt_residual.
    destruct (pnr_ok O DI d nz nl nv (pinit:=pinit) (pst:=pst) HD o y _ Hy blank_rok) as [E _].
    unfold FV, FR in E. unfold at_point, blank_residual. rewrite E. reflexivity.
  Qed.
  Lemma br_sub y yb : vok y -> vok yb ->
    sub_residual O DI d nz nl nv (p_alpha o) (p_sigma0 o) y yb = Ok (rsd_norm O (pb_inner pb y yb)).
  Proof.
    intros Hy Hb. unfold sub_residual.
    destruct (inner_ok O DI d nz nl nv (pinit:=pinit) (pst:=pst) HD o y yb _ Hy Hb blank_rok) as [E _].
    unfold FV, FR in E. unfold at_point, blank_residual. rewrite E. reflexivity.
  Qed.
  Lemma br_merit y yb : vok y -> vok yb ->
    sub_merit O DI d nz nl nv (p_alpha o) (p_sigma0 o) y yb = Ok (rsd_merit O (pb_inner pb y yb)).
  Proof.
    intros Hy Hb. unfold sub_merit.
    destruct (inner_ok O DI d nz nl nv (pinit:=pinit) (pst:=pst) HD o y yb _ Hy Hb blank_rok) as [E _].
    unfold FV, FR in E. unfold at_point, blank_residual. rewrite E. reflexivity.
  Qed.
  Lemma br_start : start_point O DI d nz nl nv x = Ok (pstart pb x).
  Proof.
    destruct (cd_guess _ _ _ _ _ _ _ _ _ _ _ _ _ _ CD) as (A & B & C). unfold start_point.
    destruct (margin_ok O DI d nz nl nv (pinit:=pinit) (pst:=pst) HD o (v_z x) (v_l x) (v_v x)
               (vconst nv (o_zero O)) A) as [E _]; [autorewrite with vlen; reflexivity|].
    unfold FV in E. unfold at_point. rewrite E. reflexivity.
  Qed.
  Lemma br_move t dx y : vok dx -> vok y -> move O DI d nz nl nv t dx y = Ok (pb_axpy pb t dx y).
  Proof.
    intros Hd Hy. unfold move.
    destruct (axpy_ok O DI d nz nl nv (pinit:=pinit) (pst:=pst) HD o t dx y Hd Hy) as [E _].
    unfold FV in E. unfold at_point. rewrite E. reflexivity.
  Qed.
  Lemma br_feas y tz tl tv : vok y -> ws_ok nz nl nv (tz, tl, tv) ->
    feasibility_test O DI d nz nl nv tz tl tv (p_infeas_tol o) y = Ok (snd (pb_feas pb (tz, tl, tv) y)).
  Proof.
    intros Hy Hw. unfold feasibility_test.
    destruct (feas_ok O DI d nz nl nv HD (cd_nv _ _ _ _ _ _ _ _ _ _ _ _ _ _ CD) y (p_infeas_tol o) _ Hy Hw) as [E _].
    unfold FV, FF in E. unfold at_point. rewrite E. reflexivity.
  Qed.
  Lemma br_tol : pb_combo pb = tolerance O DI d o.
  Proof. reflexivity. Qed.
  Lemma br_ones : var_norm O (pones O pb nz nl nv) = var_norm O (all_ones O nz nl nv).
  Proof. reflexivity. Qed.
End Bridge.
