(* Claims a user might expect, or that the documentation makes, and that the code does not
   satisfy.  Every counterexample is a run of the model on IEEE binary64 with the textbook
   factorisations of LinAlgInst (LAF), through the public API, evaluated by the kernel. *)
From Verif Require Import Examples Spec PropsOptions.
From Coq Require Import Floats.SpecFloat.
Local Open Scope Z_scope.

(* an accepted call of the dense solver on doubles *)
Notation dense_run d nz nl nv o x r :=
  (solve_call Fops LAF (dense_data F64) (denseDI Fops) d nz nl nv o x (Fint 0) r).

(* the options [o] with some fields replaced *)
Definition opts (o : params F64) sigma0 stall infeas itmax itmin : params F64 :=
  mkParams sigma0 (p_sigma_max o) (p_sigma_min o) (p_alpha o) (p_beta o) (p_eta o) (p_delta o)
    (p_gamma o) (p_abs_tol o) (p_rel_tol o) stall infeas itmax itmin
    (p_max_newton o) (p_max_prox o) (p_max_inner o) (p_max_ls o)
    (p_check_feas o) (p_nonmonotone o) (p_display o).
Definition with_stall s o := opts o (p_sigma0 o) s (p_infeas_tol o) (p_inner_tol_max o) (p_inner_tol_min o).
Definition with_infeas s o := opts o (p_sigma0 o) (p_stall_tol o) s (p_inner_tol_max o) (p_inner_tol_min o).
Definition with_inner_tols mx mn o := opts o (p_sigma0 o) (p_stall_tol o) (p_infeas_tol o) mx mn.


(* the call returned normally with an output satisfying the test *)
Definition okb {A} (m : res A) (P : A -> bool) : bool := match m with Ok a => P a | _ => false end.
Lemma okb_true {A} (m : res A) P : okb m P = true -> exists a, m = Ok a /\ P a = true.
Proof. destruct m; cbn; try discriminate. eauto. Qed.
Definition flag_is (f : exit_flag) (out : solver_out F64) : bool :=
  match f, so_eflag out with
  | SUCCESS, SUCCESS | MAXITERATIONS, MAXITERATIONS | PRIMAL_INFEASIBLE, PRIMAL_INFEASIBLE => true
  | _, _ => false end.
Lemma flag_is_ok f out : flag_is f out = true -> so_eflag out = f.
Proof. unfold flag_is. destruct f, (so_eflag out); congruence. Qed.

(* ---------------------------------------------------------------- C05 *)
(* options accepted by UpdateOptions (all numbers, no NaN) can make Solve throw the clamp
   exception: inner_tol_min may exceed inner_tol_max ... *)
Theorem C05_accepted_options_throw_refuted :
  ~ (forall d nz nl nv o x r, dense_run d nz nl nv o x r -> admissible Fops o ->
     sr_out r <> Throw ESaturate).
Proof.
  intro H.
  destruct (dcall_ok Fops LAF g0 2 0 2 (with_inner_tols (Fdec 1 (-8)) (Fdec 1 (-2)) dflt) qp_ok Owned
    (fx_ [0;0] [] [0;0] []) (Fint 0)
    (fun _ o r => sr_out r = Throw ESaturate /\ admissibleb Fops o = true) I) as (d & o & r & C & E & A).
  { vm_compute. split; reflexivity. }
  apply (H _ _ _ _ _ _ _ C); [apply admissibleb_ok; exact A|exact E].
Qed.
(* ... and even with inner_tol_min <= inner_tol_max, when inner_tol_min > abs_tol *)
Theorem C05_ordered_tolerances_throw_refuted :
  ~ (forall d nz nl nv o x r, dense_run d nz nl nv o x r -> admissible Fops o ->
     o_leb Fops (p_inner_tol_min o) (p_inner_tol_max o) = true -> sr_out r <> Throw ESaturate).
Proof.
  intro H.
  destruct (dcall_ok Fops LAF g0 2 0 2 (with_inner_tols (Fdec 1 (-2)) (Fdec 1 (-2)) dflt) qp_ok Owned
    (fx_ [0;0] [] [0;0] []) (Fint 0)
    (fun _ o r => sr_out r = Throw ESaturate /\ admissibleb Fops o = true /\
                  o_leb Fops (p_inner_tol_min o) (p_inner_tol_max o) = true) I)
    as (d & o & r & C & E & A & L).
  { vm_compute. repeat split. }
  apply (H _ _ _ _ _ _ _ C); [apply admissibleb_ok; exact A|exact L|exact E].
Qed.

(* ---------------------------------------------------------------- C09 *)
(* SUCCESS without meeting the convergence tolerance: the stall test compares with the vector of
   ones before the first iteration *)
Theorem C09_success_tolerance_refuted :
  ~ (forall d nz nl nv o x r out, dense_run d nz nl nv o x r -> admissible Fops o ->
     sr_out r = Ok out -> so_eflag out = SUCCESS ->
     o_leb Fops (so_residual out) (tolerance Fops (denseDI Fops) d o) = true).
Proof.
  intro H.
  destruct (dcall_ok Fops LAF g0 2 0 2 (with_stall (Fdec 1 3) dflt) qp_ok Owned
    (fx_ [0;0] [] [0;0] []) (Fint 0)
    (fun d o r => admissibleb Fops o = true /\ okb (sr_out r) (fun out => flag_is SUCCESS out &&
         negb (o_leb Fops (so_residual out) (tolerance Fops (denseDI Fops) d o))) = true) I)
    as (d & o & r & C & A & K).
  { vm_compute. split; reflexivity. }
  apply okb_true in K. destruct K as (out & E & K). apply andb_prop in K. destruct K as [F L].
  apply flag_is_ok in F. apply negb_true_iff in L.
  apply admissibleb_ok in A. specialize (H _ _ _ _ _ _ _ _ C A E F). congruence.
Qed.

(* ---------------------------------------------------------------- C10 *)
Theorem C10_maxiter_residual_refuted :
  ~ (forall d nz nl nv o x r out, dense_run d nz nl nv o x r -> admissible Fops o ->
     sr_out r = Ok out -> so_eflag out = MAXITERATIONS ->
     kkt_residual Fops (denseDI Fops) d nz nl nv (p_alpha o) (sr_x r) = Ok (so_residual out)).
Proof.
  intro H.
  destruct (dcall_ok Fops LAF g0 2 0 2 (with_limits 200 1 50 20 dflt) qp_ok Owned
    (fx_ [0;0] [] [0;0] []) (Fint 0)
    (fun d o r => admissibleb Fops o = true /\ okb (sr_out r) (fun out => flag_is MAXITERATIONS out &&
         okb (kkt_residual Fops (denseDI Fops) d 2 0 2 (p_alpha o) (sr_x r)) (fun v =>
         o_eqb Fops v v && negb (o_eqb Fops v (so_residual out)))) = true) I)
    as (d & o & r & C & A & K).
  { vm_compute. split; reflexivity. }
  apply okb_true in K. destruct K as (out & E & K). apply andb_prop in K. destruct K as [F K].
  apply flag_is_ok in F. apply okb_true in K. destruct K as (v & L & K). apply andb_prop in K.
  destruct K as [K2 K1]. apply negb_true_iff in K1.
  apply admissibleb_ok in A. specialize (H _ _ _ _ _ _ _ _ C A E F).
  change (kkt_residual Fops (denseDI Fops) d 2 0 2 (p_alpha o) (sr_x r) = Ok (so_residual out)) in H. rewrite L in H. injection H as ->. congruence.
Qed.

(* ---------------------------------------------------------------- C14 *)
(* min -z s.t. -z <= 0: unbounded *)
Definition qp_ray : dense_qp F64 :=
  mkDQP (fm_ 1 1 [0]) (fv_ [-1]) (fm_ 0 1 []) [] (fm_ 1 1 [-1]) (fv_ [0]).
Definition qp_nan : dense_qp F64 :=
  mkDQP (fm_ 1 1 [0]) (fv_ [-1]) (fm_ 0 1 []) [] (fm_ 1 1 [-1]) [S754_nan].
Definition g_nan : garbage F64 :=
  mkGarbage (fun _ => S754_nan) (fun _ => S754_nan) (fun _ => S754_nan) (fun _ _ _ => S754_nan).

(* the uninitialised workspace of a new solver is visible in its first answer *)
Theorem C14_uninitialised_memory_refuted :
  ~ (forall g g' nz nl nv s s' qp k x el,
     FBstabDense_new Fops g nz nl nv = Ok s -> FBstabDense_new Fops g' nz nl nv = Ok s' ->
     summary (snd (FBstabDense_Solve Fops LAF s qp k x el)) =
     summary (snd (FBstabDense_Solve Fops LAF s' qp k x el))).
Proof.
  intro H.
  assert (E : match FBstabDense_new Fops g0 1 0 1, FBstabDense_new Fops g_nan 1 0 1 with
    | Ok s, Ok s' => summary (snd (FBstabDense_Solve Fops LAF s qp_ray Owned (fx_ [0] [] [0] []) (Fint 0))) =
                     Ok (DUAL_INFEASIBLE, 6, 0) /\
                     summary (snd (FBstabDense_Solve Fops LAF s' qp_ray Owned (fx_ [0] [] [0] []) (Fint 0))) =
                     Ok (DUAL_INFEASIBLE, 7, 1)
    | _, _ => False end) by (vm_compute; split; reflexivity).
  destruct (FBstabDense_new Fops g0 1 0 1) as [s| |] eqn:E1; try contradiction.
  destruct (FBstabDense_new Fops g_nan 1 0 1) as [s'| |] eqn:E2; try contradiction.
  destruct E as [A B]. specialize (H _ _ _ _ _ _ _ qp_ray Owned (fx_ [0] [] [0] []) (Fint 0) E1 E2).
  congruence.
Qed.

(* and so is the previous problem: after a Solve on data containing a NaN, the same problem is
   answered differently than by a solver without that call in its past *)
Theorem C14_history_refuted :
  ~ (forall nz nl nv s s' qp k x el,
     dense_reach Fops LAF nz nl nv s -> dense_reach Fops LAF nz nl nv s' ->
     ds_options s = ds_options s' ->
     summary (snd (FBstabDense_Solve Fops LAF s qp k x el)) =
     summary (snd (FBstabDense_Solve Fops LAF s' qp k x el))).
Proof.
  intro H.
  assert (E : match FBstabDense_new Fops g0 1 0 1 with
    | Ok s => let s' := fst (FBstabDense_Solve Fops LAF s qp_nan Owned (fx_ [0] [] [0] []) (Fint 0)) in
              ds_options s = ds_options s' /\
              summary (snd (FBstabDense_Solve Fops LAF s qp_ray Owned (fx_ [0] [] [0] []) (Fint 0))) =
                     Ok (DUAL_INFEASIBLE, 6, 0) /\
                     summary (snd (FBstabDense_Solve Fops LAF s' qp_ray Owned (fx_ [0] [] [0] []) (Fint 0))) =
                     Ok (DUAL_INFEASIBLE, 7, 1)
    | _ => False end) by (vm_compute; repeat split).
  destruct (FBstabDense_new Fops g0 1 0 1) as [s| |] eqn:E1; try contradiction.
  destruct E as (O & A & B).
  assert (R1 : dense_reach Fops LAF 1 0 1 s) by (eapply dr_new; exact E1).
  assert (R2 := dr_solve Fops LAF 1 0 1 s qp_nan Owned (fx_ [0] [] [0] []) (Fint 0) R1 I).
  specialize (H _ _ _ _ _ qp_ray Owned (fx_ [0] [] [0] []) (Fint 0) R1 R2 O). rewrite A, B in H. discriminate.
Qed.

(* ---------------------------------------------------------------- C18 *)
(* a y of the wrong length is not rejected by the dense solver: with mapped variables the write
   back is out of bounds (undefined), with owned ones y is silently resized *)
Theorem C18_wrong_y_rejected_refuted :
  ~ (forall nz nl nv s qp k x el, dense_reach Fops LAF nz nl nv s ->
     Z.of_nat (length (v_y x)) <> nv -> exists e, sr_out (snd (FBstabDense_Solve Fops LAF s qp k x el)) = Throw e).
Proof.
  intro H.
  assert (E : match FBstabDense_new Fops g0 2 0 2 with
    | Ok s => sr_out (snd (FBstabDense_Solve Fops LAF s qp_ok Mapped (fx_ [0;0] [] [0;0] [0]) (Fint 0))) = UB UBSize
    | _ => False end) by (vm_compute; reflexivity).
  destruct (FBstabDense_new Fops g0 2 0 2) as [s| |] eqn:E1; try contradiction.
  destruct (H 2 0 2 s qp_ok Mapped (fx_ [0;0] [] [0;0] [0]) (Fint 0)) as [e He]; [eapply dr_new; exact E1|discriminate|].
  rewrite E in He. discriminate.
Qed.

(* ---------------------------------------------------------------- C19 *)
(* two-column q: every other size is right; Solve does not throw, the vector update is undefined *)
Definition ocp_wide_q : mpc_ref F64 :=
  mkMR (m_Q ocp) (m_R ocp) (m_S ocp) (fseq 3 1 2 [0;0;0;0;0;0]) (m_r ocp) (m_A ocp) (m_B ocp) (m_c ocp)
       (m_E ocp) (m_L ocp) (m_d ocp) (m_x0 ocp).
Theorem C19_columns_rejected_refuted :
  ~ (forall N nx nu nc s qp k x el, mpc_reach Fops LAF N nx nu nc s -> seqs_valid qp -> ~ single_columns qp ->
     exists e, sr_out (snd (FBstabMpc_Solve Fops LAF s qp k x el)) = Throw e).
Proof.
  intro H.
  assert (E : match FBstabMpc_new Fops g0 2 1 1 1 with
    | Ok s => sr_out (snd (FBstabMpc_Solve Fops LAF s ocp_wide_q Owned
                (fx_ [0;0;0;0;0;0] [0;0;0] [0;0;0] [0;0;0]) (Fint 0))) = UB UBSize
    | _ => False end) by (vm_compute; reflexivity).
  destruct (FBstabMpc_new Fops g0 2 1 1 1) as [s| |] eqn:E1; try contradiction.
  destruct (H 2 1 1 1 s ocp_wide_q Owned (fx_ [0;0;0;0;0;0] [0;0;0] [0;0;0] [0;0;0]) (Fint 0)) as [e He].
  - eapply mr_new; exact E1.
  - destruct (proj1 ocp_valid). constructor; cbn; try assumption.
    unfold seq_valid; cbn. repeat split; try lia; try reflexivity. intros _. eexists. split; [reflexivity|cbn; lia].
  - intros (A & _). cbn in A. discriminate.
  - rewrite E in He. discriminate.
Qed.

(* ---------------------------------------------------------------- C42 *)
(* min z^2/2 - z s.t. z <= 1e200: with default options the guess z = 0 is declared optimal at
   once although its residual is 1 *)
Definition qp_far : dense_qp F64 :=
  mkDQP (fm_ 1 1 [1]) (fv_ [-1]) (fm_ 0 1 []) [] (fm_ 1 1 [1]) [Fdec 1 200].
Definition finite (x : F64) : bool :=
  match x with S754_finite _ _ _ | S754_zero _ => true | _ => false end.
Definition finite_vec (v : vec F64) : bool := forallb finite v.
Definition finite_qp (qp : dense_qp F64) : bool :=
  finite_vec (me (q_H qp)) && finite_vec (q_f qp) && finite_vec (me (q_G qp)) && finite_vec (q_h qp) &&
  finite_vec (me (q_A qp)) && finite_vec (q_b qp).
Theorem C42_large_bounds_refuted :
  ~ (forall nz nl nv s qp k x el out, dense_reach Fops LAF nz nl nv s -> ds_options s = dflt ->
     finite_qp qp = true -> y_fits k x (Z.to_nat nv) ->
     sr_out (snd (FBstabDense_Solve Fops LAF s qp k x el)) = Ok out -> so_eflag out = SUCCESS ->
     o_ltb Fops (so_residual out) (Fdec 5 (-1)) = true).
Proof.
  intro H.
  assert (E : match FBstabDense_new Fops g0 1 0 1 with
    | Ok s => ds_options s = dflt /\ 
        okb (sr_out (snd (FBstabDense_Solve Fops LAF s qp_far Owned (fx_ [0] [] [0] []) (Fint 0))))
          (fun out => flag_is SUCCESS out && negb (o_ltb Fops (so_residual out) (Fdec 5 (-1)))) = true
    | _ => False end) by (vm_compute; split; reflexivity).
  destruct (FBstabDense_new Fops g0 1 0 1) as [s| |] eqn:E1; try contradiction.
  destruct E as (O & K). apply okb_true in K. destruct K as (out & E & K). apply andb_prop in K.
  destruct K as [F L]. apply flag_is_ok in F. apply negb_true_iff in L.
  assert (K := H 1 0 1 s qp_far Owned (fx_ [0] [] [0] []) (Fint 0) out (dr_new _ _ _ _ _ _ _ E1) O eq_refl I E F).
  congruence.
Qed.

(* ---------------------------------------------------------------- C43 *)
(* min z^2/2 - 6 z s.t. z <= 1, z <= 2 (z = 0 is feasible: b >= 0), started at z = 1, v = (0,5),
   infeas_tol = 1e-3, everything else default: PRIMAL_INFEASIBLE *)
Definition qp_two : dense_qp F64 :=
  mkDQP (fm_ 1 1 [1]) (fv_ [-6]) (fm_ 0 1 []) [] (fm_ 2 1 [1;1]) (fv_ [1;2]).
Theorem C43_false_infeasibility_refuted :
  ~ (forall nz nv s qp k x el out, dense_reach Fops LAF nz 0 nv s -> admissible Fops (ds_options s) ->
     finite_qp qp = true -> forallb (o_leb Fops (Fint 0)) (q_b qp) = true -> y_fits k x (Z.to_nat nv) ->
     sr_out (snd (FBstabDense_Solve Fops LAF s qp k x el)) = Ok out ->
     so_eflag out <> PRIMAL_INFEASIBLE).
Proof.
  intro H.
  assert (E : match FBstabDense_new Fops g0 1 0 2 with
    | Ok s0 => let s := fst (FBstabDense_UpdateOptions Fops s0 (with_infeas (Fdec 1 (-3)) dflt)) in
        admissibleb Fops (ds_options s) = true /\ 
        okb (sr_out (snd (FBstabDense_Solve Fops LAF s qp_two Owned (fx_ [1] [] [0;5] []) (Fint 0))))
            (flag_is PRIMAL_INFEASIBLE) = true
    | _ => False end) by (vm_compute; split; reflexivity).
  destruct (FBstabDense_new Fops g0 1 0 2) as [s| |] eqn:E1; try contradiction.
  destruct E as (A & K). apply okb_true in K. destruct K as (out & E & F). apply flag_is_ok in F. apply admissibleb_ok in A.
  exact (H _ _ _ qp_two Owned (fx_ [1] [] [0;5] []) (Fint 0) out (dr_update _ _ _ _ _ _ _ (dr_new _ _ _ _ _ _ _ E1)) A eq_refl eq_refl I E F).
Qed.

(* ---------------------------------------------------------------- C45 *)
(* Newton-limit exit in the first subproblem (no proximal iteration completed, so the last
   proximal iterate is the guess) returning a point worse than the guess *)
Definition qp_steep : dense_qp F64 :=
  mkDQP (fm_ 1 1 [1]) (fv_ [-7]) (fm_ 0 1 []) [] (fm_ 1 1 [1000]) (fv_ [0]).
Theorem C45_better_point_refuted :
  ~ (forall d nz nl nv o x r out, dense_run d nz nl nv o x r -> admissible Fops o ->
     sr_out r = Ok out -> so_eflag out = MAXITERATIONS -> so_prox out = 0 -> 0 < p_max_prox o ->
     o_leb Fops (so_residual out) (so_initial out) = true).
Proof.
  intro H.
  destruct (dcall_ok Fops LAF g0 1 0 1 (with_limits 2 30 2 20 dflt) qp_steep Owned
    (fx_ [-9] [] [0] []) (Fint 0)
    (fun d o r => admissibleb Fops o = true /\ 0 < p_max_prox o /\ okb (sr_out r) (fun out => flag_is MAXITERATIONS out && (so_prox out =? 0) &&
         negb (o_leb Fops (so_residual out) (so_initial out))) = true) I)
    as (d & o & r & C & A & M & K).
  { vm_compute. split; [reflexivity|]. split; reflexivity. }
  apply okb_true in K. destruct K as (out & E & K). apply andb_prop in K. destruct K as [K L].
  apply andb_prop in K. destruct K as [F P]. apply flag_is_ok in F. apply Z.eqb_eq in P.
  apply negb_true_iff in L.
  apply admissibleb_ok in A. specialize (H _ _ _ _ _ _ _ _ C A E F P M). congruence.
Qed.
