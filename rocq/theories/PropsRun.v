(* Properties of every accepted Solve call of either solver, after any history of calls on the
   solver object, for any arithmetic in which 0 == 0 (in particular IEEE doubles and reals) and
   any Cholesky/LDLT implementation.  [solve_call] is defined in Api.v, the vocabulary in
   Spec.v, the reading of traces ([after], [ctx]) in Trace.v. *)
From Verif Require Import Spec.

(* std::max_element returns an element, and the largest one when nothing is NaN *)
Lemma max_element_in {T} (O : Ops T) l : forall a, In (max_element O a l) (a :: l).
Proof.
  induction l as [|b l IH]; intro a; cbn [max_element]; [left; reflexivity|].
  destruct (IH (if o_ltb O a b then b else a)) as [E|E]; [|right; right; exact E].
  destruct (o_ltb O a b); [right; left|left]; exact E.
Qed.
Lemma max_element_ge {T} (O : Ops T) {num : T -> Prop} (OL : OrdLaws O num) l : forall a,
  Forall num (a :: l) -> forall m, In m (a :: l) -> o_leb O m (max_element O a l) = true.
Proof.
  induction l as [|b l IH]; intros a F m Hm; cbn [max_element].
  - destruct Hm as [ -> |[]]. inversion F; subst. destruct (ol_total O num OL m m); assumption.
  - inversion F as [|? ? Fa F']; subst. inversion F' as [|? ? Fb F'']; subst.
    pose proof (ol_ltb O num OL a b Fa Fb) as LT.
    destruct (o_ltb O a b) eqn:E.
    + assert (NB : o_leb O a b = true).
      { destruct (ol_total O num OL a b Fa Fb) as [H|H]; [exact H|]. rewrite H in LT. discriminate. }
      assert (IHb := IH b F').
      destruct Hm as [ <- |Hm]; [|apply IHb; exact Hm].
      eapply (ol_trans O num OL); [exact NB|apply IHb; left; reflexivity].
    + assert (NB : o_leb O b a = true) by (destruct (o_leb O b a); [reflexivity|discriminate]).
      assert (IHa := IH a (Forall_cons _ Fa F'')).
      destruct Hm as [ <- |[ <- |Hm]]; [apply IHa; left; reflexivity| |apply IHa; right; exact Hm].
      eapply (ol_trans O num OL); [exact NB|apply IHa; left; reflexivity].
Qed.

Section Run.
  Context {T : Type} (O : Ops T) (LA : LinAlg T).
  Hypothesis zero_eq : o_eqb O (o_zero O) (o_zero O) = true.
  Context {D : Type} {DI : DataI T D} {d : D} {nz nl nv : nat}
          {o : params T} {x : var T} {el : T} {r : solve_result T}.
  Hypothesis call : solve_call O LA D DI d nz nl nv o x el r.

  Notation residual := (kkt_residual O DI d nz nl nv (p_alpha o)).
  Notation inner_residual := (sub_residual O DI d nz nl nv (p_alpha o) (p_sigma0 o)).
  Notation inner_merit := (sub_merit O DI d nz nl nv (p_alpha o) (p_sigma0 o)).
  Notation plus t dx y := (move O DI d nz nl nv t dx y).
  Notation tol := (tolerance O DI d o).
  Notation start := (start_point O DI d nz nl nv x).
  (* the state of the run after all of its events *)
  Notation final x0 := (after x0 (sr_trace r)).

  Local Ltac open :=
    destruct (call_desc_ex O LA zero_eq _ _ _ _ _ _ _ _ _ _ call) as (pinit & pst & stale & w & CD);
    pose proof (call_exit O _ _ _ _ _ _ _ _ _ _ _ _ _ CD) as EX;
    pose proof (call_events O _ _ _ _ _ _ _ _ _ _ _ _ _ CD) as EV;
    pose proof (call_counts O _ _ _ _ _ _ _ _ _ _ _ _ _ CD) as CC;
    pose proof (br_start O _ _ _ _ _ _ _ _ _ _ _ _ _ CD) as ST;
    pose proof (br_resid O _ _ _ _ _ _ _ _ _ _ _ _ _ CD) as BR;
    pose proof (br_sub O _ _ _ _ _ _ _ _ _ _ _ _ _ CD) as BS;
    pose proof (br_merit O _ _ _ _ _ _ _ _ _ _ _ _ _ CD) as BM;
    pose proof (br_move O _ _ _ _ _ _ _ _ _ _ _ _ _ CD) as BV;
    pose proof (br_feas O _ _ _ _ _ _ _ _ _ _ _ _ _ CD) as BF;
    pose proof (br_tol O DI d nz nl nv o pinit pst) as BT;
    set (pb := prob_of O DI d nz nl nv pinit pst o) in *.
  Local Ltac at_start ST E := rewrite ST in E; injection E as <-.
  Local Ltac ok EX CC E := rewrite E in EX, CC; destruct EX as [_ EX].

  (* every call has a starting point *)
  Theorem start_point_exists : exists x0, start = Ok x0.
  Proof. open. eauto. Qed.

  (* ---------------------------------------------------------------- C06 *)
  (* Solve is a total function of the model: every loop is bounded by its own limit. *)
  Theorem C06_iteration_limits :
    match sr_out r with
    | Ok out =>
        (0 <= so_newton out <= p_max_newton o)%Z /\ (0 <= so_prox out <= p_max_prox o)%Z /\
        Z.of_nat (count is_lin (sr_trace r)) = so_newton out /\
        (Z.of_nat (count is_mer (sr_trace r)) <= so_newton out * p_max_ls o)%Z
    | Throw _ =>
        (Z.of_nat (count is_lin (sr_trace r)) <= p_max_newton o)%Z /\
        (Z.of_nat (count is_sub (sr_trace r)) <= p_max_prox o)%Z /\
        (Z.of_nat (count is_mer (sr_trace r)) <= Z.of_nat (count is_lin (sr_trace r)) * p_max_ls o)%Z
    | UB _ => False
    end.
  Proof.
    open. destruct (cd_lim _ _ _ _ _ _ _ _ _ _ _ _ _ _ CD) as (L1 & L2 & L3 & L4).
    destruct (sr_out r) as [out|e|u]; [| |contradiction].
    - destruct CC as (C1 & C2 & C3 & C4 & _). repeat split; try lia; nia.
    - destruct CC as (C1 & C2 & C3). repeat split; try lia; nia.
  Qed.

  (* Budgets: a linear system is solved only while fewer than max_inner_iters steps were taken
     in the current subproblem and fewer than max_newton_iters overall, and only when the
     subproblem's stopping test failed at the current point; a subproblem is started only while
     fewer than max_prox_iters proximal steps were taken. *)
  Theorem C06_budget_before_each_step : forall x0 pre g post,
    start = Ok x0 -> sr_trace r = pre ++ g :: post ->
    match g with
    | GLin _ _ => (c_newton (after x0 pre) < p_max_newton o)%Z /\
                  (Z.of_nat (length (c_merits (after x0 pre))) < p_max_inner o)%Z
    | GSub _ _ _ _ => (c_prox (after x0 pre) < p_max_prox o)%Z
    | _ => True
    end.
  Proof.
    intros x0 pre g post E0 ET. open. at_start ST E0. pose proof (EV pre g post ET) as TO.
    destruct g; try exact I; cbn in TO; intuition lia.
  Qed.

  (* ---------------------------------------------------------------- C07 *)
  Theorem C07_exit_flags : forall out, sr_out r = Ok out ->
    so_eflag out <> DIVERGENCE /\
    (so_eflag out = PRIMAL_INFEASIBLE \/ so_eflag out = DUAL_INFEASIBLE \/
     so_eflag out = PRIMAL_DUAL_INFEASIBLE -> p_check_feas o = true) /\
    (so_eflag out = MAXITERATIONS ->
       so_newton out = p_max_newton o \/ so_prox out = p_max_prox o).
  Proof.
    intros out E. open. ok EX CC E.
    destruct CC as (_ & C2 & _).
    destruct EX as (_ & _ & _ & [(F & _)|[(F & N & _)|[(F & N & _)|(F & N & _)]]]).
    - rewrite F. repeat split; try discriminate. intros [?|[?|?]]; discriminate.
    - rewrite F. repeat split; try discriminate; try lia. intros [?|[?|?]]; discriminate.
    - rewrite F. repeat split; try discriminate; try lia. intros [?|[?|?]]; discriminate.
    - split; [destruct (so_eflag out); discriminate|]. split; [auto|].
      intro F2. rewrite F2 in F. discriminate.
  Qed.

  (* ---------------------------------------------------------------- C08 *)
  Theorem C08_success_residual : forall out x0, sr_out r = Ok out -> start = Ok x0 ->
    so_eflag out = SUCCESS ->
    residual (sr_x r) = Ok (so_residual out) /\
    (o_leb O (so_residual out) tol = true \/
     (* the last proximal step is tiny; before any step the code uses the all-ones vector *)
     o_leb O (var_norm O (match c_step (final x0) with Some dx => dx | None => all_ones O nz nl nv end))
             (p_stall_tol o) = true).
  Proof.
    intros out x0 E E0 F. open. at_start ST E0. ok EX CC E.
    destruct EX as (V & _ & _ & [(_ & X & R & H)|[(F' & _)|[(F' & _)|(F' & _)]]]);
      try (rewrite F in F'; discriminate).
    rewrite (BR _ V), <- R. split; [reflexivity|].
    rewrite <- BT.
    destruct H as [H|H]; [left; exact H|right]. unfold step_or in H.
    destruct (c_step (final (pstart pb x))); exact H.
  Qed.

  (* ---------------------------------------------------------------- C10 *)
  (* Newton-limit exits (prox_iters < max_prox_iters) report the returned point's residual;
     proximal-limit exits report the residual of the point last examined by the inner loop. *)
  Theorem C10_maxiter_residual : forall out x0, sr_out r = Ok out -> start = Ok x0 ->
    so_eflag out = MAXITERATIONS ->
    ((so_prox out < p_max_prox o)%Z -> residual (sr_x r) = Ok (so_residual out)) /\
    (so_prox out = p_max_prox o ->
       sr_x r = c_x (final x0) /\
       exists xs, c_seen (final x0) = Some xs /\ residual xs = Ok (so_residual out)).
  Proof.
    intros out x0 E E0 F. open. at_start ST E0. ok EX CC E. fold pb in EX.
    destruct EX as (V & SN & SP & [(F' & _)|[(_ & _ & LT & R & _ & _ & xs & S1 & S2 & S3)|[(_ & P & X & xs & S1 & S2 & S3)|(F' & _)]]]);
      try (rewrite F in F'; discriminate).
    - split; [intros _; rewrite (BR _ V), <- R; reflexivity|].
      intro P. lia.
    - split; [lia|]. intros _. split; [exact X|]. exists xs. split; [exact S1|].
      rewrite (BR _ S2), <- S3. reflexivity.
  Qed.

  (* ---------------------------------------------------------------- C11 *)
  (* [c_center], [c_x]: the last two proximal iterates. *)
  Theorem C11_certificate : forall out x0, sr_out r = Ok out -> start = Ok x0 ->
    so_eflag out = PRIMAL_INFEASIBLE \/ so_eflag out = DUAL_INFEASIBLE \/
    so_eflag out = PRIMAL_DUAL_INFEASIBLE ->
    plus (o_mone O) (c_center (final x0)) (c_x (final x0)) = Ok (sr_x r) /\
    exists tz tl tv fs, length tz = nz /\ length tl = nl /\ length tv = nv /\
      feasibility_test O DI d nz nl nv tz tl tv (p_infeas_tol o) (sr_x r) = Ok fs /\
      so_eflag out = match fs with
                     | FS_FEASIBLE => SUCCESS | FS_PRIMAL => PRIMAL_INFEASIBLE
                     | FS_DUAL => DUAL_INFEASIBLE | FS_BOTH => PRIMAL_DUAL_INFEASIBLE end.
  Proof.
    intros out x0 E E0 F. open. at_start ST E0. ok EX CC E.
    assert (FI : infeas (so_eflag out) = true) by (destruct F as [->|[->| ->]]; reflexivity).
    destruct EX as (V & SN & SP & [(F' & _)|[(F' & _)|[(F' & _)|(_ & CF & CS & X & V1 & V2 & (((tz & tl) & tv) & W1 & W2) & _)]]]);
      try (rewrite F' in FI; discriminate).
    split; [rewrite (BV _ _ _ V1 V2), <- X; reflexivity|].
    exists tz, tl, tv, (snd (pb_feas pb (tz, tl, tv) (sr_x r))).
    destruct W1 as (L1 & L2 & L3). repeat (split; [assumption|]).
    split; [apply BF; [exact V|repeat split; assumption]|].
    rewrite <- W2. destruct (snd _); reflexivity.
  Qed.

  (* ---------------------------------------------------------------- C05 *)
  (* The clamp exception of Solve, exactly: it is raised because the inner tolerances are
     reversed, or because the current proximal iterate has a residual above the convergence
     tolerance but below inner_tol_min.  When it is not raised, neither happened at any
     proximal iterate from which a subproblem was started. *)
  Theorem C05_clamp_exception : forall x0, start = Ok x0 ->
    match sr_out r with
    | Throw ESaturate =>
        (o_ltb O (p_inner_tol_max o) (p_inner_tol_min o) = true /\ sr_trace r = []) \/
        (o_ltb O (p_inner_tol_max o) (p_inner_tol_min o) = false /\
         exists E, residual (c_x (final x0)) = Ok E /\ o_leb O E tol = false /\
                   o_ltb O E (p_inner_tol_min o) = true)
    | _ =>
        o_ltb O (p_inner_tol_max o) (p_inner_tol_min o) = false /\
        forall pre prev t E xb post, sr_trace r = pre ++ GSub prev t E xb :: post ->
          residual xb = Ok E /\ o_leb O E tol = false /\ o_ltb O E (p_inner_tol_min o) = false
    end.
  Proof.
    intros x0 E0. open. at_start ST E0.
    assert (SUB : forall pre prev t E xb post, sr_trace r = pre ++ GSub prev t E xb :: post ->
          residual xb = Ok E /\ o_leb O E tol = false /\ o_ltb O E (p_inner_tol_min o) = false).
    { intros pre prev t E xb post ET. pose proof (EV _ _ _ ET) as K. cbn [ev_ok] in K.
      destruct K as (K1 & K2 & K3 & K4 & K5 & K6 & K7 & K8). rewrite BT in K5.
      split; [rewrite (BR _ K3), K4; reflexivity|]. split; [exact K5|].
      unfold saturate in K8. destruct (o_ltb O E (p_inner_tol_min o)); [discriminate|reflexivity]. }
    assert (NT : forall e y yb rr, pb_newton pb y yb rr = Throw e -> e <> ESaturate).
    { intros e y yb rr. unfold pb, pb_newton, prob_of, pnewton.
      rewrite (cd_init _ _ _ _ _ _ _ _ _ _ _ _ _ _ CD).
      destruct (o_leb O (p_sigma0 o) (o_zero O)).
      - intros [= <-]. discriminate.
      - destruct (unres true _); [discriminate|]. intros [= <-]. discriminate. }
    destruct (sr_out r) as [out|e|u]; [| |contradiction].
    - split; [apply EX|exact SUB].
    - destruct EX as [_ [(-> & H1 & H2)|(H1 & V & [(-> & H2 & H3 & H4)|(V2 & H2)])]].
      + left; auto.
      + right. split; [exact H1|]. exists (rsd_norm O (pb_pnr pb (c_x (final (pstart pb x))))).
        rewrite (BR _ V), <- BT. auto.
      + pose proof (NT _ _ _ _ H2) as NE. destruct e; auto. destruct NE; reflexivity.
  Qed.

  (* Sufficient conditions under which the options never make Solve throw the clamp error. *)
  Theorem C05_no_clamp_exception : forall num : T -> Prop, OrdLaws O num ->
    o_leb O (p_inner_tol_min o) (p_inner_tol_max o) = true ->
    o_leb O (p_inner_tol_min o) tol = true ->
    sr_out r <> Throw ESaturate.
  Proof.
    intros num OL H1 H2 E. destruct start_point_exists as [x0 E0].
    pose proof (C05_clamp_exception x0 E0) as K. rewrite E in K.
    destruct K as [[K _]|(_ & Ek & _ & K1 & K2)].
    - rewrite (leb_ltb_false OL _ _ H1) in K. discriminate.
    - apply (ltb_leb OL) in K2. rewrite (ol_trans _ _ OL _ _ _ K2 H2) in K1. discriminate.
  Qed.

  (* ---------------------------------------------------------------- C37 *)
  (* One event per Newton update: the point it starts from, the direction, the merit there, the
     reference merit m0, the step length t, the number j of reductions, whether the
     sufficient-decrease test was passed, the new point. *)
  Theorem C37_line_search : forall x0 pre xc dx cm m0 t j acc x' post, start = Ok x0 ->
    sr_trace r = pre ++ GStep xc dx cm m0 t j acc x' :: post ->
    let c := after x0 pre in
    let decrease s m := o_leb O m (o_sub O m0 (o_mul O (o_mul O (o_mul O (o_two O) s) (p_eta o)) cm)) in
    xc = c_x c /\ plus t dx xc = Ok x' /\ inner_merit xc (c_center c) = Ok cm /\
    (p_nonmonotone o = false -> m0 = cm) /\
    (* the largest of this merit and those at the starts of the last four updates of this
       subproblem, zero standing for the missing ones *)
    (p_nonmonotone o = true -> let window := firstn 5 (cm :: c_merits c ++ repeat (o_zero O) 4) in
       In m0 window /\
       forall num : T -> Prop, OrdLaws O num -> Forall num window ->
         forall m, In m window -> o_leb O m m0 = true) /\
    t = beta_pow O o j (o_one O) /\ (Z.of_nat j <= p_max_ls o)%Z /\
    (acc = true -> (Z.of_nat j < p_max_ls o)%Z /\
       exists m, inner_merit x' (c_center c) = Ok m /\ decrease t m = true) /\
    (acc = false -> Z.of_nat j = p_max_ls o) /\
    (forall i, i < j -> exists xi mi, plus (beta_pow O o i (o_one O)) dx xc = Ok xi /\
       inner_merit xi (c_center c) = Ok mi /\ decrease (beta_pow O o i (o_one O)) mi = false).
  Proof.
    intros x0 pre xc dx cm m0 t j acc x' post E0 ET. open. at_start ST E0. cbv zeta.
    destruct (cd_lim _ _ _ _ _ _ _ _ _ _ _ _ _ _ CD) as (_ & _ & _ & L4).
    pose proof (EV _ _ _ ET) as K. cbn [ev_ok] in K.
    destruct K as (-> & V1 & V2 & V3 & V4 & ms & m' & S1 & S2 & S3 & S4 & S5 & S6 & S7 & S8 & S9 & S10 & S11).
    set (c := after (pstart pb x) pre) in *.
    split; [reflexivity|]. split; [rewrite (BV _ _ _ V3 V1), <- S9; reflexivity|].
    split; [rewrite (BM _ _ V1 V2), <- S2; reflexivity|].
    assert (M0 : m0 = (if p_nonmonotone o
          then MaxMerit O (firstn 5 (cm :: c_merits c ++ repeat (o_zero O) 4)) else cm)).
    { rewrite S4, S3. unfold buf_of, InsertMerit.
      change (firstn 5 (cm :: ?l)) with (cm :: firstn 4 l). rewrite firstn_firstn. change (Init.Nat.min 4 5) with 4.
      replace (firstn 4 (c_merits c ++ repeat (o_zero O) 5)) with (firstn 4 (c_merits c ++ repeat (o_zero O) 4));
        [reflexivity|]. clear.
      destruct (c_merits c) as [|a [|b [|e [|f l]]]]; reflexivity. }
    split; [intro NM; rewrite NM in M0; exact M0|].
    split.
    { intro NM. rewrite NM in M0. cbv zeta. rewrite M0.
      change (firstn 5 (cm :: ?l)) with (cm :: firstn 4 l). cbn [MaxMerit].
      split; [apply max_element_in|]. intros num OL F m Hm. apply (max_element_ge O OL); [exact F|exact Hm]. }
    split; [exact S8|]. split; [lia|].
    split; [|split].
    - intros ->. destruct S10 as [S10 S12]. split; [lia|]. eexists. split; [apply BM; assumption|exact S12].
    - intros ->. lia.
    - intros i Hi. do 2 eexists. split; [apply BV; assumption|].
      split; [apply BM; [apply (cl_axpy O DI d nz nl nv o x el r pinit pst stale w CD); assumption|assumption]|apply S11; exact Hi].
  Qed.

  (* ---------------------------------------------------------------- C38 *)
  (* v_i >= 0 in the sense that it does not compare below zero *)
  Theorem C38_duals_nonnegative : forall out, o_ltb O (o_zero O) (o_zero O) = false ->
    sr_out r = Ok out -> so_eflag out = SUCCESS \/ so_eflag out = MAXITERATIONS ->
    (0 < so_prox out)%Z \/ (forall i, i < nv -> o_ltb O (vget O (v_v x) i) (o_zero O) = false) ->
    forall i, i < nv -> o_ltb O (vget O (v_v (sr_x r)) i) (o_zero O) = false.
  Proof.
    intros out Z0 E F H. open.
    assert (V : var_ok nz nl nv (sr_x r)) by (rewrite E in EX; apply EX).
    intros i Hi.
    refine (call_projected O _ _ _ _ _ _ _ _ _ _ _ _ _ CD
      (fun y => forall i, i < nv -> length (v_v y) = nv -> o_ltb O (vget O (v_v y) i) (o_zero O) = false)
      out _ E _ _ i Hi _).
    - intros y k Hk Hl. cbn [proj_duals v_v]. cbn [proj_duals v_v] in Hl. rewrite tab_length in Hl. rewrite Hl.
      rewrite (vget_tab O) by exact Hk. unfold smax.
      destruct (o_ltb O (vget O (v_v y) k) (o_zero O)) eqn:EL; assumption.
    - destruct F as [-> | ->]; reflexivity.
    - destruct H as [H|H]; [right; exact H|left]. intros k Hk _. apply H; exact Hk.
    - apply V.
  Qed.

  (* ---------------------------------------------------------------- C41 *)
  (* [prev]: tolerance of the previous subproblem (or the initial clamp), [t]: the tolerance of
     this one, [E]: the outer residual at its centre xb. *)
  Theorem C41_tolerance_schedule : forall num : T -> Prop, OrdLaws O num ->
    forall pre prev t E xb post, sr_trace r = pre ++ GSub prev t E xb :: post ->
    residual xb = Ok E /\
    (num E -> num (p_inner_tol_min o) -> num (o_mul O prev (p_delta o)) ->
       o_leb O (p_inner_tol_min o) t = true /\ o_leb O t E = true /\
       (o_leb O t (p_inner_tol_min o) = true \/ o_leb O t (o_mul O prev (p_delta o)) = true)).
  Proof.
    intros num OL pre prev t E xb post ET. open. pose proof (EV _ _ _ ET) as K. cbn [ev_ok] in K.
    destruct K as (K1 & K2 & K3 & K4 & K5 & K6 & K7 & K8).
    split; [rewrite (BR _ K3), K4; reflexivity|].
    intros NE NM ND. unfold saturate in K8.
    destruct (o_ltb O E (p_inner_tol_min o)) eqn:EL; [discriminate|].
    pose proof (ltb_false_leb OL _ _ NE NM EL) as LE. injection K8 as K8.
    destruct (sat_between OL (o_mul O prev (p_delta o)) _ _ ND LE) as [B1 B2].
    unfold sat in B1, B2. rewrite K8 in B1, B2. split; [exact B1|]. split; [exact B2|].
    rewrite <- K8. unfold smax, smin.
    destruct (o_ltb O E (o_mul O prev (p_delta o))) eqn:E1.
    - rewrite EL. right. apply (ltb_leb OL). exact E1.
    - destruct (o_ltb O (o_mul O prev (p_delta o)) (p_inner_tol_min o)) eqn:E2.
      + left. apply (leb_refl OL). exact NM.
      + right. apply (leb_refl OL). exact ND.
  Qed.

  (* the first [prev] is the initial residual clamped to [inner_tol_min, inner_tol_max], every
     later one is the tolerance of the subproblem before *)
  Theorem C41_previous_tolerance : forall x0 E0 pre prev t E xb post, start = Ok x0 ->
    residual x0 = Ok E0 -> sr_trace r = pre ++ GSub prev t E xb :: post ->
    xb = c_x (after x0 pre) /\
    prev = match c_tol (after x0 pre) with
           | Some t' => t'
           | None => smax O (smin O E0 (p_inner_tol_max o)) (p_inner_tol_min o)
           end.
  Proof.
    intros x0 E0' pre prev t E xb post E0 R0 ET. open. at_start ST E0.
    pose proof (EV _ _ _ ET) as K. cbn [ev_ok] in K. destruct K as (K1 & K2 & _).
    split; [exact K2|]. rewrite BR in R0 by (apply (cl_start O _ _ _ _ _ _ _ _ _ _ _ _ _ CD)).
    injection R0 as <-. rewrite K1. reflexivity.
  Qed.

  (* ---------------------------------------------------------------- C44 *)
  Theorem C44_initial_residual : forall out x0, sr_out r = Ok out -> start = Ok x0 ->
    v_z x0 = v_z x /\ v_l x0 = v_l x /\ v_v x0 = v_v x /\ residual x0 = Ok (so_initial out).
  Proof.
    intros out x0 E E0. open. at_start ST E0. rewrite E in CC.
    repeat (split; [reflexivity|]).
    rewrite BR by (apply (cl_start O _ _ _ _ _ _ _ _ _ _ _ _ _ CD)).
    destruct CC as (_ & _ & _ & _ & _ & -> & _). reflexivity.
  Qed.

  (* ---------------------------------------------------------------- C45 *)
  (* The Newton-limit exit: [c_center] is the last proximal iterate, [c_x] the last inner
     iterate after projection, [c_seen] the last point the inner loop examined. *)
  Theorem C45_newton_limit_choice : forall out x0, sr_out r = Ok out -> start = Ok x0 ->
    so_eflag out = MAXITERATIONS -> (so_prox out < p_max_prox o)%Z ->
    exists xs Es Ek, c_seen (final x0) = Some xs /\ residual xs = Ok Es /\
      residual (c_center (final x0)) = Ok Ek /\
      sr_x r = (if o_ltb O Es Ek then c_x (final x0) else c_center (final x0)).
  Proof.
    intros out x0 E E0 F LP. open. at_start ST E0. ok EX CC E.
    destruct EX as (V & SN & SP & [(F' & _)|[(_ & _ & LT & R & V1 & V2 & xs & S1 & S2 & S3)|[(_ & P & _)|(F' & _)]]]);
      try (rewrite F in F'; discriminate); [|lia].
    do 3 eexists. split; [exact S1|]. split; [apply BR; exact S2|]. split; [apply BR; exact V1|exact S3].
  Qed.

  (* consequently the returned point is no worse than the last proximal iterate whenever the
     projected last inner iterate is no worse than the point examined last *)
  Theorem C45_better_point_partial : forall num : T -> Prop, OrdLaws O num ->
    forall out x0 xs Es Ei, sr_out r = Ok out -> start = Ok x0 ->
    so_eflag out = MAXITERATIONS -> (so_prox out < p_max_prox o)%Z ->
    c_seen (final x0) = Some xs -> residual xs = Ok Es ->
    residual (c_x (final x0)) = Ok Ei -> o_leb O Ei Es = true ->
    forall Ek, residual (c_center (final x0)) = Ok Ek -> num Ek ->
    o_leb O (so_residual out) Ek = true.
  Proof.
    intros num OL out x0 xs Es Ei E E0 F LP S1 R1 R2 LE Ek RK NK.
    destruct (C45_newton_limit_choice out x0 E E0 F LP) as (xs' & Es' & Ek' & S1' & R1' & RK' & CH).
    rewrite S1 in S1'. injection S1' as <-. rewrite R1 in R1'. injection R1' as <-.
    rewrite RK in RK'. injection RK' as <-.
    destruct (C10_maxiter_residual out x0 E E0 F) as [RR _]. specialize (RR LP). rewrite CH in RR.
    destruct (o_ltb O Es Ek) eqn:EL.
    - rewrite R2 in RR. injection RR as <-. apply (ltb_leb OL) in EL. apply (ol_trans _ _ OL _ _ _ LE EL).
    - rewrite RK in RR. injection RR as <-. apply (leb_refl OL). exact NK.
  Qed.
End Run.
