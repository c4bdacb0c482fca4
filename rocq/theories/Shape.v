(* C51: the order of the events of a run. *)
From Verif Require Export Spec PropsRun.

(* ---------- specification ---------- *)
Definition is_inner {T} (g : ghost T) : Prop :=
  match g with GInner _ _ _ | GLin _ _ | GMerit _ _ | GStep _ _ _ _ _ _ _ _ => True | _ => False end.
(* [run_shape fin xk tr]: the events [tr] of a run whose current proximal iterate is xk.  Subproblems
   follow one another; each is centred at the iterate, and its projected result x is the next
   iterate.  The run may end after a completed subproblem, or after the projection (Newton limit):
   after the projection only with flag MAXITERATIONS, and inside a subproblem only if it throws
   ([fin]: the exit flag, None for an exception). *)
Definition flag_out {T} (r : res (solver_out T)) : option exit_flag :=
  match r with Ok out => Some (so_eflag out) | _ => None end.
Inductive run_shape {T} (fin : option exit_flag) : var T -> list (ghost T) -> Prop :=
| rs_end xk : run_shape fin xk []
| rs_inside xk prev tol Ek l : fin = None -> Forall is_inner l -> run_shape fin xk (GSub prev tol Ek xk :: l)
| rs_limit xk prev tol Ek l x : fin = Some MAXITERATIONS -> Forall is_inner l ->
    run_shape fin xk (GSub prev tol Ek xk :: l ++ [GProject x])
| rs_next xk prev tol Ek l x dx tr : Forall is_inner l -> run_shape fin x tr ->
    run_shape fin xk (GSub prev tol Ek xk :: l ++ GProject x :: GProx dx :: tr).

(* The same with the inside of every subproblem spelled out.  [inner_run xb x l xe]: the inner loop of the
   subproblem centred at xb goes from x to xe through the events l.  Each pass tests the residuals of the
   current point, solves the Newton system there for the same centre, tries steps, and moves. *)
Inductive inner_run {T} (xb : var T) : var T -> list (ghost T) -> var T -> Prop :=
| in_limit x : inner_run xb x [] x
| in_test x Ei Eo : inner_run xb x [GInner x Ei Eo] x
| in_step x Ei Eo ms dx cm m0 t j acc x' l xe :
    Forall (fun g => exists xp mp, g = GMerit xp mp) ms -> inner_run xb x' l xe ->
    inner_run xb x (GInner x Ei Eo :: GLin x xb :: ms ++ GStep x dx cm m0 t j acc x' :: l) xe.
Definition is_step {T} (g : ghost T) : bool := match g with GStep _ _ _ _ _ _ _ _ => true | _ => false end.
Section Grammar.
  Context {T : Type} (O : Ops T).
  (* the point with its inequality duals replaced by their nonnegative parts *)
  Definition projected (x y : var T) : Prop :=
    v_z y = v_z x /\ v_l y = v_l x /\ v_y y = v_y x /\ length (v_v y) = length (v_v x) /\
    forall i, (i < length (v_v x))%nat -> vget O (v_v y) i = smax O (vget O (v_v x) i) (o_zero O).
  Inductive run_grammar (fin : option exit_flag) : var T -> list (ghost T) -> Prop :=
  | rg_end xk : run_grammar fin xk []
  | rg_inside xk prev tol Ek l xe Ei Eo : fin = None -> inner_run xk xk (l ++ [GInner xe Ei Eo]) xe ->
      run_grammar fin xk (GSub prev tol Ek xk :: l ++ [GInner xe Ei Eo])
  | rg_limit xk prev tol Ek l xe x : fin = Some MAXITERATIONS -> inner_run xk xk l xe -> projected xe x ->
      run_grammar fin xk (GSub prev tol Ek xk :: l ++ [GProject x])
  | rg_next xk prev tol Ek l xe x dx tr : inner_run xk xk l xe -> projected xe x -> run_grammar fin x tr ->
      run_grammar fin xk (GSub prev tol Ek xk :: l ++ GProject x :: GProx dx :: tr).
End Grammar.

(* ---------- proofs ---------- *)
Section Shape.
  Context {T : Type} (O : Ops T) (o : params T) (pb : prob T).
  Lemma irun_inner tol Ek xbar fuel n m x Eo dx ri rk tr r :
    irun O o pb tol Ek xbar fuel n m x Eo dx ri rk tr r -> Forall is_inner tr.
  Proof.
    induction 1 as [| | | |? ? ? ? ? ? ? ? ? ? ? ms ? ? ? ? ? ? ? ? ? ? ? ? ? ? ST ? IH].
    - constructor.
    - repeat constructor.
    - repeat constructor.
    - repeat constructor.
    - constructor; [exact I|]. constructor; [exact I|]. apply Forall_app. split.
      + destruct ST as (_ & _ & _ & _ & F & _). eapply Forall_impl; [|exact F].
        intros g Hg. destruct g; try contradiction; exact I.
      + constructor; [exact I|exact IH].
  Qed.
  Lemma irun_run tol Ek xbar fuel n m x Eo dx ri rk tr r :
    irun O o pb tol Ek xbar fuel n m x Eo dx ri rk tr r ->
    match r with
    | Ok (_, xe, _, _, _, _) => inner_run xbar x tr xe
    | _ => exists l xe Ei Eo', tr = l ++ [GInner xe Ei Eo'] /\ inner_run xbar x tr xe
    end.
  Proof.
    induction 1 as [| | | |fuel n m x Eo0 dx0 ri0 rk0 Ei Eo dx ms cm m0 t j acc x' m' ri' tr r E1 E2 HS HN ST HR IH].
    - constructor.
    - constructor.
    - exists [], x, Ei, Eo. split; [reflexivity|constructor].
    - exists [], x, Ei, Eo. split; [reflexivity|constructor].
    - assert (F : Forall (fun g : ghost T => exists xp mp, g = GMerit xp mp) ms).
      { destruct ST as (_ & _ & _ & _ & F & _). eapply Forall_impl; [|exact F].
        intros g Hg. destruct g; try contradiction. do 2 eexists; reflexivity. }
      destruct r as [[[[[[? xe] ?] ?] ?] ?]|e|u].
      + apply in_step; assumption.
      + destruct IH as (l & xe & Ei' & Eo' & -> & IH).
        exists (GInner x Ei Eo :: GLin x xbar :: ms ++ GStep x dx cm m0 t j acc x' :: l), xe, Ei', Eo'.
        split; [cbn [app]; rewrite <- app_assoc; reflexivity|apply in_step; assumption].
      + destruct IH as (l & xe & Ei' & Eo' & -> & IH).
        exists (GInner x Ei Eo :: GLin x xbar :: ms ++ GStep x dx cm m0 t j acc x' :: l), xe, Ei', Eo'.
        split; [cbn [app]; rewrite <- app_assoc; reflexivity|apply in_step; assumption].
  Qed.
  Lemma count_none {A} (f : A -> bool) l : Forall (fun g => f g = false) l -> count f l = 0.
  Proof. induction 1 as [|a l Ha _ IH]; [reflexivity|]. rewrite count_cons, Ha, IH. reflexivity. Qed.
  Lemma inner_run_steps (xb x xe : var T) l : inner_run xb x l xe -> count is_lin l = count is_step l.
  Proof.
    induction 1 as [| |x Ei Eo ms dx cm m0 t j acc x' l xe F H IH]; try reflexivity.
    rewrite !count_cons, !count_app, !count_cons, IH. cbn [is_lin is_step].
    rewrite (count_none is_lin ms), (count_none is_step ms); [lia| |];
      (eapply Forall_impl; [|exact F]); intros g (xp & mp & ->); reflexivity.
  Qed.
  Lemma proj_projected (x : var T) : projected O x (proj_duals O x).
  Proof.
    unfold projected, proj_duals; cbn [v_z v_l v_y v_v].
    repeat split; try (rewrite tab_length; reflexivity). 
    intros i Hi. rewrite vget_tab by exact Hi. reflexivity.
  Qed.
  Lemma grammar_steps fin (xk : var T) tr : run_grammar O fin xk tr -> count is_lin tr = count is_step tr.
  Proof.
    induction 1 as [|? ? ? ? ? ? ? ? _ H|? ? ? ? ? ? ? _ H _|? ? ? ? ? ? ? ? ? H _ _ IH]; [reflexivity| | |];
      pose proof (inner_run_steps _ _ _ _ H) as E; rewrite ?count_cons, ?count_app, ?count_cons, ?count_nil in *;
      cbn [is_lin is_step] in *; lia.
  Qed.
  Context (el E0 : T).
  Lemma prun_grammar fuel itol xk dx ri rk w n p tr r :
    prun O o pb el E0 fuel itol xk dx ri rk w n p tr r ->
    run_grammar O (flag_out (rbind r (fun y => Ok (fst y)))) xk tr.
  Proof.
    induction 1;
      try match goal with H : irun _ _ _ _ _ _ _ _ _ _ _ _ _ _ _ _ |- _ => pose proof (irun_run _ _ _ _ _ _ _ _ _ _ _ _ _ H) as IR end.
    - constructor.
    - constructor.
    - constructor.
    - destruct IR as (l & xe & Ei & Eo & -> & IR). apply rg_inside; [reflexivity|exact IR].
    - destruct IR as (l & xe & Ei & Eo & -> & IR). apply rg_inside; [reflexivity|exact IR].
    - eapply rg_limit; [reflexivity|exact IR|apply proj_projected].
    - eapply rg_next; [exact IR|apply proj_projected|constructor].
    - cbn [app]. eapply rg_next; [exact IR|apply proj_projected|assumption].
  Qed.
  Lemma prun_shape fuel itol xk dx ri rk w n p tr r :
    prun O o pb el E0 fuel itol xk dx ri rk w n p tr r -> run_shape (flag_out (rbind r (fun y => Ok (fst y)))) xk tr.
  Proof.
    induction 1.
    - constructor.
    - constructor.
    - constructor.
    - apply rs_inside; [reflexivity|]. eapply irun_inner; eassumption.
    - apply rs_inside; [reflexivity|]. eapply irun_inner; eassumption.
    - apply rs_limit; [reflexivity|]. eapply irun_inner; eassumption.
    - apply rs_next; [eapply irun_inner; eassumption|constructor].
    - cbn [app]. apply rs_next; [eapply irun_inner; eassumption|assumption].
  Qed.
End Shape.

Section Call.
  Context {T : Type} (O : Ops T) (LA : LinAlg T).
  Hypothesis zero_eq : o_eqb O (o_zero O) (o_zero O) = true.
  Context {D : Type} {DI : DataI T D} {d : D} {nz nl nv : nat} {o : params T} {x : var T} {el : T}
          {r : solve_result T}.

  Lemma desc_shape pinit pst stale w : call_desc O DI d nz nl nv o x el r pinit pst stale w ->
    run_shape (flag_out (sr_out r)) (pstart (prob_of O DI d nz nl nv pinit pst o) x) (sr_trace r).
  Proof.
    intro CD. pose proof CD as [RUN NUB HD HG HV HI HST HW HL].
    set (pb := prob_of O DI d nz nl nv pinit pst o) in *.
    unfold psolve in RUN, NUB.
    destruct (saturate O (rsd_norm O (pb_pnr pb (pstart pb x))) (p_inner_tol_min o) (p_inner_tol_max o)) as [it|e|u] eqn:ES.
    2,3: cbn in RUN; subst r; cbn; constructor.
    cbn [wlift wbind wlog] in RUN, NUB.
    set (w0 := pprox O o pb el _ _ _ _ _ _ _ _ _ _) in RUN, NUB.
    pose proof (pprox_prun O o pb el (rsd_norm O (pb_pnr pb (pstart pb x))) (Z.to_nat (p_max_prox o)) it
                 (pstart pb x) (pones O pb nz nl nv) stale (pb_pnr pb (pstart pb x)) w 0%Z 0%Z) as PR.
    fold w0 in PR. destruct w0 as [[lg tr] rr]. cbn [fst snd app] in *.
    assert (ET : sr_trace r = tr /\ flag_out (sr_out r) = flag_out (rbind rr (fun y => Ok (fst y))))
      by (destruct rr as [[out xw]|e|u]; cbn [presult] in RUN; subst r; split; reflexivity).
    destruct ET as [ET ->]. rewrite ET. eapply prun_shape; exact PR.
  Qed.

  Lemma desc_grammar pinit pst stale w : call_desc O DI d nz nl nv o x el r pinit pst stale w ->
    run_grammar O (flag_out (sr_out r)) (pstart (prob_of O DI d nz nl nv pinit pst o) x) (sr_trace r).
  Proof.
    intro CD. pose proof CD as [RUN NUB HD HG HV HI HST HW HL].
    set (pb := prob_of O DI d nz nl nv pinit pst o) in *.
    unfold psolve in RUN, NUB.
    destruct (saturate O (rsd_norm O (pb_pnr pb (pstart pb x))) (p_inner_tol_min o) (p_inner_tol_max o)) as [it|e|u] eqn:ES.
    2,3: cbn in RUN; subst r; cbn; constructor.
    cbn [wlift wbind wlog] in RUN, NUB.
    set (w0 := pprox O o pb el _ _ _ _ _ _ _ _ _ _) in RUN, NUB.
    pose proof (pprox_prun O o pb el (rsd_norm O (pb_pnr pb (pstart pb x))) (Z.to_nat (p_max_prox o)) it
                 (pstart pb x) (pones O pb nz nl nv) stale (pb_pnr pb (pstart pb x)) w 0%Z 0%Z) as PR.
    fold w0 in PR. destruct w0 as [[lg tr] rr]. cbn [fst snd app] in *.
    assert (ET : sr_trace r = tr /\ flag_out (sr_out r) = flag_out (rbind rr (fun y => Ok (fst y))))
      by (destruct rr as [[out xw]|e|u]; cbn [presult] in RUN; subst r; split; reflexivity).
    destruct ET as [ET ->]. rewrite ET. eapply prun_grammar; exact PR.
  Qed.

  (* ---------------------------------------------------------------- C51 *)
  (* Every run is a sequence of proximal subproblems: the first is centred at the guess (with its
     constraint margin), every other at the projected result of the one before it.  Only a run that
     throws ends inside a subproblem. *)
  Theorem C51_run_shape : solve_call O LA D DI d nz nl nv o x el r ->
    forall x0, start_point O DI d nz nl nv x = Ok x0 -> run_shape (flag_out (sr_out r)) x0 (sr_trace r).
  Proof.
    intros call x0 E0.
    destruct (call_desc_ex O LA zero_eq _ _ _ _ _ _ _ _ _ _ call) as (pinit & pst & stale & w & CD).
    rewrite (br_start O _ _ _ _ _ _ _ _ _ _ _ _ _ CD) in E0. injection E0 as <-.
    eapply desc_shape. exact CD.
  Qed.
  (* The same with the inner loops: every Newton step starts where the one before it ended, uses the
     centre of its subproblem, and the subproblem's result is the projection of its last point. *)
  Theorem C51_run_grammar : solve_call O LA D DI d nz nl nv o x el r ->
    forall x0, start_point O DI d nz nl nv x = Ok x0 -> run_grammar O (flag_out (sr_out r)) x0 (sr_trace r).
  Proof.
    intros call x0 E0.
    destruct (call_desc_ex O LA zero_eq _ _ _ _ _ _ _ _ _ _ call) as (pinit & pst & stale & w & CD).
    rewrite (br_start O _ _ _ _ _ _ _ _ _ _ _ _ _ CD) in E0. injection E0 as <-.
    eapply desc_grammar. exact CD.
  Qed.
  (* The reported number of Newton iterations is the number of Newton steps taken: no step is taken
     without being counted, and no iteration is counted without a step. *)
  Theorem C51_newton_steps : solve_call O LA D DI d nz nl nv o x el r ->
    count is_lin (sr_trace r) = count is_step (sr_trace r) /\
    forall out, sr_out r = Ok out -> so_newton out = Z.of_nat (count is_step (sr_trace r)).
  Proof.
    intros call.
    destruct (call_desc_ex O LA zero_eq _ _ _ _ _ _ _ _ _ _ call) as (pinit & pst & stale & w & CD).
    pose proof (grammar_steps O _ _ _ (desc_grammar _ _ _ _ CD)) as E. split; [exact E|].
    intros out EO. pose proof (C06_iteration_limits O LA zero_eq call) as K. rewrite EO in K.
    destruct K as (_ & _ & K & _). rewrite <- E. lia.
  Qed.
End Call.
Print Assumptions C51_run_grammar.
Print Assumptions C51_newton_steps.
Print Assumptions C51_run_shape.
