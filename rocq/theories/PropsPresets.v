(* C74: what a user gets without touching an option, with DefaultOptions(), with ReliableOptions()
   and with a default-constructed option struct, on doubles.  Assembled from C02, C06, C08, C11,
   C16, C37 and C41; the numbers are those of fbstab_algorithm.h:48-74 and
   fbstab_algorithm-impl.h:33-74. *)
From Verif Require Import PropsRun PropsSim PropsApi PropsOptions.
Local Open Scope Z_scope.

(* ---------- specification ---------- *)
Record preset : Type := mkPreset {
  pr_newton : Z; pr_prox : Z; pr_inner : Z; pr_ls : Z;      (* limits *)
  pr_monotone : bool;
  pr_sigma : F64; pr_alpha : F64; pr_beta : F64; pr_eta : F64; pr_delta : F64;
  pr_abs : F64; pr_rel : F64; pr_stall : F64; pr_infeas : F64; pr_inner_min : F64; pr_inner_max : F64 }.

Definition default_preset : preset := mkPreset 200 30 50 20 false
  (Fdec 1 (-8)) (Fdec 95 (-2)) (Fdec 75 (-2)) (Fdec 1 (-8)) (Fdec 2 (-1))
  (Fdec 1 (-6)) (Fdec 1 (-12)) (Fdec 1 (-10)) (Fdec 1 (-8)) (Fdec 1 (-12)) (Fdec 1 (-2)).
Definition reliable_preset : preset := mkPreset 500 100 50 40 true
  (Fdec 1 (-4)) (Fdec 95 (-2)) (Fdec 9 (-1)) (Fdec 1 (-8)) (Fdec 2 (-1))
  (Fdec 1 (-4)) (Fdec 1 (-6)) (Fdec 1 (-10)) (Fdec 1 (-8)) (Fdec 1 (-12)) (Fdec 1 (-2)).
Definition struct_preset : preset := mkPreset 500 100 100 20 false
  (Fdec 1 (-8)) (Fdec 95 (-2)) (Fdec 7 (-1)) (Fdec 1 (-8)) (Fdec 2 (-1))
  (Fdec 1 (-6)) (Fdec 1 (-12)) (Fdec 1 (-10)) (Fdec 1 (-8)) (Fdec 1 (-12)) (Fdec 1 (-1)).

(* 1 * b * b * ... (j times) *)
Fixpoint shrunk (b t : F64) (j : nat) : F64 :=
  match j with 0%nat => t | S j => shrunk b (o_mul Fops t b) j end.
Definition le (a b : F64) : Prop := o_leb Fops a b = true.

Section Follows.
  Context {D : Type} (DI : DataI F64 D) (d : D) (nz nl nv : nat) (pr : preset) (x : var F64) (el : F64).
  Declare Scope F_scope.
  Infix "+" := (o_add Fops) : F_scope. Infix "*" := (o_mul Fops) : F_scope. Infix "-" := (o_sub Fops) : F_scope.
  Delimit Scope F_scope with F.

  Definition preset_tolerance : F64 := (pr_abs pr + pr_rel pr * (o_one Fops + di_fnorm DI d))%F.

  (* the answer: within the limits; one closing summary and no other text; SUCCESS only within the
     preset's tolerances; an infeasibility verdict only by the test with the preset's tolerance *)
  Definition answer_follows (r : solve_result F64) : Prop :=
    match sr_out r with
    | Ok out =>
        0 <= so_newton out <= pr_newton pr /\ 0 <= so_prox out <= pr_prox pr /\
        (exists rk, rsd_norm Fops rk = so_residual out /\
           sr_log r = [EvFinal (so_eflag out) (Fdec 1000 0 * el)%F (so_prox out) (pr_prox pr) (so_newton out)
                               (pr_newton pr) (r_zn rk) (r_ln rk) (r_vn rk) preset_tolerance]) /\
        (so_eflag out = SUCCESS ->
           kkt_residual Fops DI d nz nl nv (pr_alpha pr) (sr_x r) = Ok (so_residual out) /\
           (le (so_residual out) preset_tolerance \/
            exists x0, start_point Fops DI d nz nl nv x = Ok x0 /\
              le (var_norm Fops (match c_step (after x0 (sr_trace r)) with
                                 | Some step => step | None => all_ones Fops nz nl nv end)) (pr_stall pr))) /\
        (so_eflag out = PRIMAL_INFEASIBLE \/ so_eflag out = DUAL_INFEASIBLE \/
         so_eflag out = PRIMAL_DUAL_INFEASIBLE ->
           exists tz tl tv fs, length tz = nz /\ length tl = nl /\ length tv = nv /\
             feasibility_test Fops DI d nz nl nv tz tl tv (pr_infeas pr) (sr_x r) = Ok fs /\
             so_eflag out = match fs with FS_FEASIBLE => SUCCESS | FS_PRIMAL => PRIMAL_INFEASIBLE
                                        | FS_DUAL => DUAL_INFEASIBLE | FS_BOTH => PRIMAL_DUAL_INFEASIBLE end)
    | Throw _ => sr_log r = []
    | UB _ => False
    end.

  (* every linear system, Newton update and subproblem of the run *)
  Definition work_follows (r : solve_result F64) : Prop :=
    Z.of_nat (count is_mer (sr_trace r)) <= Z.of_nat (count is_lin (sr_trace r)) * pr_ls pr /\
    forall x0 pre g post, start_point Fops DI d nz nl nv x = Ok x0 -> sr_trace r = (pre ++ g :: post)%list ->
    let c := after x0 pre in
    let merit y := sub_merit Fops DI d nz nl nv (pr_alpha pr) (pr_sigma pr) y (c_center c) in
    match g with
    | GLin _ _ => c_newton c < pr_newton pr /\ Z.of_nat (length (c_merits c)) < pr_inner pr
    | GStep xc dx cm m0 t j acc x' =>
        merit xc = Ok cm /\ (pr_monotone pr = true -> m0 = cm) /\
        Z.of_nat j <= pr_ls pr /\ t = shrunk (pr_beta pr) (o_one Fops) j /\
        (acc = true -> exists m, merit x' = Ok m /\
           le m (m0 - o_two Fops * t * pr_eta pr * cm)%F)
    | GSub prev t E xb =>
        c_prox c < pr_prox pr /\
        (forall E0, kkt_residual Fops DI d nz nl nv (pr_alpha pr) x0 = Ok E0 ->
           prev = match c_tol c with
                  | Some t' => t'
                  | None => smax Fops (smin Fops E0 (pr_inner_max pr)) (pr_inner_min pr) end) /\
        kkt_residual Fops DI d nz nl nv (pr_alpha pr) xb = Ok E /\
        (Fnum E -> Fnum (prev * pr_delta pr)%F -> le (pr_inner_min pr) t /\ le t E /\
           (le t (pr_inner_min pr) \/ le t (prev * pr_delta pr)%F))
    | _ => True
    end.
End Follows.

(* ---------- proofs ---------- *)
Definition preset_of (o : params F64) : preset :=
  mkPreset (p_max_newton o) (p_max_prox o) (p_max_inner o) (p_max_ls o) (negb (p_nonmonotone o))
    (p_sigma0 o) (p_alpha o) (p_beta o) (p_eta o) (p_delta o) (p_abs_tol o) (p_rel_tol o) (p_stall_tol o)
    (p_infeas_tol o) (p_inner_tol_min o) (p_inner_tol_max o).

Lemma shrunk_pow o j : forall t, beta_pow Fops o j t = shrunk (p_beta o) t j.
Proof. induction j as [|j IH]; intro t; [reflexivity|]. cbn [beta_pow shrunk]. apply IH. Qed.

Section Call.
  Context (LA : LinAlg F64) {D : Type} (DI : DataI F64 D) (d : D) (nz nl nv : nat)
          (o : params F64) (x : var F64) (el : F64) (r : solve_result F64).
  Hypothesis call : solve_call Fops LA D DI d nz nl nv o x el r.
  Hypothesis disp : p_display o = FINAL.
  Hypothesis itmin : Fnum (p_inner_tol_min o).

  Lemma call_answer : answer_follows DI d nz nl nv (preset_of o) x el r.
  Proof.
    pose proof (C06_iteration_limits Fops LA eq_refl call) as H6.
    pose proof (C16_final_summary Fops LA eq_refl call disp) as H16.
    pose proof (C08_success_residual Fops LA eq_refl call) as H8.
    pose proof (C11_certificate Fops LA eq_refl call) as H11.
    destruct (start_point_exists Fops LA eq_refl call) as [x0 E0].
    unfold answer_follows. destruct (sr_out r) as [out|e|u] eqn:EO; [|exact H16|exact H6].
    destruct H6 as (A & B & _). split; [exact A|]. split; [exact B|]. split; [|split].
    - destruct H16 as (ev & EL & rk & N & ->). exists rk. split; [exact N|]. exact EL.
    - intro S0. destruct (H8 out x0 eq_refl E0 S0) as [K1 K2]. split; [exact K1|].
      destruct K2 as [K2|K2]; [left; exact K2|right]. exists x0. split; [exact E0|exact K2].
    - intro S0. destruct (H11 out x0 eq_refl E0 S0) as [_ K]. exact K.
  Qed.

  Lemma call_work : work_follows DI d nz nl nv (preset_of o) x r.
  Proof.
    split.
    { pose proof (C06_iteration_limits Fops LA eq_refl call) as H6.
      destruct (sr_out r) as [out|e|u]; [|tauto|contradiction].
      destruct H6 as (_ & _ & E & L). rewrite E. exact L. }
    intros x0 pre g post E0 ET. cbv zeta.
    pose proof (C06_budget_before_each_step Fops LA eq_refl call x0 pre g post E0 ET) as H6.
    destruct g; try exact I; try exact H6.
    - split; [exact H6|]. split.
      + intros E1 ER. apply (C41_previous_tolerance Fops LA eq_refl call x0 E1 _ _ _ _ _ _ E0 ER ET).
      + destruct (C41_tolerance_schedule Fops LA eq_refl call Fnum ord_F _ _ _ _ _ _ ET) as [A B].
        split; [exact A|]. intros N1 N2. exact (B N1 itmin N2).
    - pose proof (C37_line_search Fops LA eq_refl call _ _ _ _ _ _ _ _ _ _ _ E0 ET) as H.
      cbv zeta in H. destruct H as (_ & _ & M & Mono & _ & Tt & J & Acc & _).
      split; [exact M|]. split; [|split; [exact J|split; [rewrite shrunk_pow in Tt; exact Tt|]]].
      + cbn [preset_of pr_monotone]. intro N. apply negb_true_iff in N. exact (Mono N).
      + intro A. destruct (Acc A) as [_ K]. exact K.
  Qed.
End Call.

(* the option structs a user can hand to UpdateOptions without setting a field, and what they stand for *)
Inductive stock : params F64 -> preset -> Prop :=
| st_default : stock (DefaultParameters Fops) default_preset        (* DefaultOptions() *)
| st_reliable : stock (ReliableParameters Fops) reliable_preset     (* ReliableOptions() *)
| st_struct : stock (struct_defaults Fops) struct_preset.           (* Options() *)

(* a call refused for its sizes prints nothing and changes nothing; any other follows the preset *)
Definition dense_follows (nz nl nv : Z) pr (qp : dense_qp F64) x el {S : Type} (s : S) (c : S * solve_result F64) : Prop :=
  rejected s x c \/
  exists d, DenseData_ctor Fops (Some (q_H qp)) (Some (q_f qp)) (Some (q_G qp)) (Some (q_h qp))
                           (Some (q_A qp)) (Some (q_b qp)) = Ok d /\
    answer_follows (denseDI Fops) d (Z.to_nat nz) (Z.to_nat nl) (Z.to_nat nv) pr x el (snd c) /\
    work_follows (denseDI Fops) d (Z.to_nat nz) (Z.to_nat nl) (Z.to_nat nv) pr x (snd c).
Definition mpc_follows (nz nl nv : Z) pr (qp : mpc_ref F64) x el {S : Type} (s : S) (c : S * solve_result F64) : Prop :=
  rejected s x c \/
  exists d, MpcData_ctor Fops qp = Ok d /\
    answer_follows (mpcDI Fops) d (Z.to_nat nz) (Z.to_nat nl) (Z.to_nat nv) pr x el (snd c) /\
    work_follows (mpcDI Fops) d (Z.to_nat nz) (Z.to_nat nl) (Z.to_nat nv) pr x (snd c).

(* what ends up installed *)
Lemma stock_installed o pr : stock o pr -> forall cur,
  exists p, UpdateParameters Fops cur o = Ok p /\ preset_of p = pr /\ p_display p = FINAL /\ Fnum (p_inner_tol_min p).
Proof.
  intros [] cur; eexists; (split; [vm_compute; reflexivity|]);
    (split; [vm_compute; reflexivity|]); (split; [reflexivity|intro E; discriminate E]).
Qed.

Lemma default_installed : default_preset = preset_of (DefaultParameters Fops).
Proof. vm_compute. reflexivity. Qed.

Lemma default_num : Fnum (p_inner_tol_min (DefaultParameters Fops)).
Proof. vm_compute. intro E. discriminate E. Qed.

Section Theorems.
  Context (LA : LinAlg F64).

  Lemma dense_call nz nl nv s qp k x el : dense_reach Fops LA nz nl nv s -> y_fits k x (Z.to_nat nv) ->
    p_display (ds_options s) = FINAL -> Fnum (p_inner_tol_min (ds_options s)) ->
    dense_follows nz nl nv (preset_of (ds_options s)) qp x el s (FBstabDense_Solve Fops LA s qp k x el).
  Proof.
    intros Hr Hy Hd Hn. destruct (dense_cases Fops LA nz nl nv s qp k x el Hr) as [[_ R]|[_ (d & Hc & Hv)]].
    - left; exact R.
    - right. exists d. split; [exact Hc|].
      pose proof (sc_dense Fops LA nz nl nv s qp d k x el Hr Hc Hv Hy) as C.
      split; [eapply call_answer; eassumption|eapply call_work; eassumption].
  Qed.

  Lemma mpc_call N nx nu nc s qp k x el : mpc_reach Fops LA N nx nu nc s ->
    seqs_valid qp -> single_columns qp -> mpc_fits qp ->
    p_display (mps_options s) = FINAL -> Fnum (p_inner_tol_min (mps_options s)) ->
    mpc_follows (mps_nz s) (mps_nl s) (mps_nv s) (preset_of (mps_options s)) qp x el s (FBstabMpc_Solve Fops LA s qp k x el).
  Proof.
    intros Hr Hs Hc Hf Hd Hn.
    destruct (mpc_cases Fops LA eq_refl N nx nu nc s qp k x el Hr Hs Hc Hf) as [[_ R]|[_ (d & Hcd & Hv)]].
    - left; exact R.
    - right. exists d. split; [exact Hcd|].
      pose proof (sc_mpc Fops LA N nx nu nc s qp d k x el Hr Hs Hc Hcd Hv) as C.
      split; [eapply call_answer; eassumption|eapply call_work; eassumption].
  Qed.

  (* a solver whose options were never touched *)
  Theorem C74_dense_untouched : forall g nz nl nv s qp k x el,
    FBstabDense_new Fops g nz nl nv = Ok s -> y_fits k x (Z.to_nat nv) ->
    dense_follows nz nl nv default_preset qp x el s (FBstabDense_Solve Fops LA s qp k x el).
  Proof.
    intros g nz nl nv s qp k x el E Hy.
    destruct (dense_new_inv _ _ _ _ _ _ E) as [_ EO].
    rewrite default_installed, <- EO.
    apply dense_call; [eapply dr_new; exact E|exact Hy| |]; rewrite EO; [reflexivity|exact default_num].
  Qed.
  Theorem C74_mpc_untouched : forall g N nx nu nc s qp k x el,
    FBstabMpc_new Fops g N nx nu nc = Ok s -> seqs_valid qp -> single_columns qp -> mpc_fits qp ->
    mpc_follows (mps_nz s) (mps_nl s) (mps_nv s) default_preset qp x el s (FBstabMpc_Solve Fops LA s qp k x el).
  Proof.
    intros g N nx nu nc s qp k x el E Hs Hc Hf.
    destruct (mpc_new_inv _ _ _ _ _ _ _ E) as [_ EO].
    rewrite default_installed, <- EO.
    apply (mpc_call N nx nu nc); [eapply mr_new; exact E|exact Hs|exact Hc|exact Hf| |]; rewrite EO; [reflexivity|exact default_num].
  Qed.

  (* a solver, whatever was done with it before, after UpdateOptions with one of the three structs *)
  Theorem C74_dense_stock : forall o pr nz nl nv s qp k x el, stock o pr ->
    dense_reach Fops LA nz nl nv s -> y_fits k x (Z.to_nat nv) ->
    let s' := fst (FBstabDense_UpdateOptions Fops s o) in
    dense_follows nz nl nv pr qp x el s' (FBstabDense_Solve Fops LA s' qp k x el).
  Proof.
    intros o pr nz nl nv s qp k x el St Hr Hy. cbv zeta.
    destruct (stock_installed o pr St (a_opts (ds_alg s))) as (p & E & <- & Hd & Hn).
    assert (EO : ds_options (fst (FBstabDense_UpdateOptions Fops s o)) = p).
    { unfold FBstabDense_UpdateOptions. rewrite E. reflexivity. }
    rewrite <- EO. rewrite <- EO in Hd, Hn. apply dense_call; [apply dr_update; exact Hr|exact Hy|exact Hd|exact Hn].
  Qed.
  Theorem C74_mpc_stock : forall o pr N nx nu nc s qp k x el, stock o pr ->
    mpc_reach Fops LA N nx nu nc s -> seqs_valid qp -> single_columns qp -> mpc_fits qp ->
    let s' := fst (FBstabMpc_UpdateOptions Fops s o) in
    mpc_follows (mps_nz s) (mps_nl s) (mps_nv s) pr qp x el s' (FBstabMpc_Solve Fops LA s' qp k x el).
  Proof.
    intros o pr N nx nu nc s qp k x el St Hr Hs Hc Hf. cbv zeta.
    destruct (stock_installed o pr St (a_opts (mps_alg s))) as (p & E & <- & Hd & Hn).
    assert (EO : mps_options (fst (FBstabMpc_UpdateOptions Fops s o)) = p /\
      mps_nz (fst (FBstabMpc_UpdateOptions Fops s o)) = mps_nz s /\
      mps_nl (fst (FBstabMpc_UpdateOptions Fops s o)) = mps_nl s /\
      mps_nv (fst (FBstabMpc_UpdateOptions Fops s o)) = mps_nv s).
    { unfold FBstabMpc_UpdateOptions. rewrite E. repeat split. }
    destruct EO as (EO & <- & <- & <-).
    rewrite <- EO. rewrite <- EO in Hd, Hn. apply (mpc_call N nx nu nc); [apply mr_update; exact Hr|exact Hs|exact Hc|exact Hf|exact Hd|exact Hn].
  Qed.
End Theorems.
