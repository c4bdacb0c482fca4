(* C14 and C69, continued: what a Solve of the dense solver leaves in the three work vectors of the
   feasibility check, and what this means for the calls after it. *)
From Verif Require Export PropsStale PropsInfeas.
Local Open Scope nat_scope.

(* ---------------------------------------------------------------- who writes the work vectors *)
Section Frame.
  Context {T D L : Type} (O : Ops T) (DI : DataI T D) (LS : LSI T D L).
  Notation MM := (M (ast T D L)).
  Definition ffw (f : ffeas T D) : ws T := (ff_tz f, ff_tl f, ff_tv f).
  (* w is what a feasibility check of the step dx leaves *)
  Definition left_by (p : dptr D) (dx : var T) (w : ws T) : Prop :=
    exists x tol f f' fs, fv_x x = dx /\ ff_data f = p /\ ff_check O DI x tol f = Ok (f', fs) /\ w = ffw f'.
  (* from s to s' the trace grew, and the work vectors stayed or come from a check of a step in the trace *)
  Definition grew (s s' : ast T D L) : Prop :=
    ff_data (a_ff s') = ff_data (a_ff s) /\ a_opts s' = a_opts s /\ (exists t, a_trace s' = a_trace s ++ t) /\
    (ws_of s' = ws_of s \/
     p_check_feas (a_opts s) = true /\ exists dx, In (GProx dx) (a_trace s') /\ left_by (ff_data (a_ff s)) dx (ws_of s')).
  Definition tame {A} (m : MM A) : Prop := forall s, grew s (fst (m s)).

  Lemma grew_refl s : grew s s.
  Proof. repeat split; [exists []; rewrite app_nil_r; reflexivity|left; reflexivity]. Qed.
  Lemma grew_trans s1 s2 s3 : grew s1 s2 -> grew s2 s3 -> grew s1 s3.
  Proof.
    intros (A1 & A2 & (t1 & A3) & A4) (B1 & B2 & (t2 & B3) & B4). split; [congruence|]. split; [congruence|].
    split; [exists (t1 ++ t2); rewrite B3, A3, app_assoc; reflexivity|].
    destruct B4 as [B4|(C & dx & I & LB)].
    - rewrite B4. destruct A4 as [A4|(C & dx & I & LB)]; [left; exact A4|right]. split; [exact C|]. exists dx.
      split; [rewrite B3; apply in_or_app; left; exact I|exact LB].
    - right. rewrite A2 in C. split; [exact C|]. exists dx. rewrite A1 in LB. split; assumption.
  Qed.
  Lemma tame_ret A (a : A) : tame (mret a). Proof. intro s. apply grew_refl. Qed.
  Lemma tame_lift A (r : res A) : tame (mlift r). Proof. intro s. apply grew_refl. Qed.
  Lemma tame_get A (f : _ -> A) : tame (mget_ f). Proof. intro s. apply grew_refl. Qed.
  Lemma tame_bind A B (m : MM A) (k : A -> MM B) : tame m -> (forall a, tame (k a)) -> tame (mbind m k).
  Proof.
    intros H1 H2 s. unfold mbind. specialize (H1 s). destruct (m s) as [s1 [a|e|u]]; cbn [fst] in *; try exact H1.
    eapply grew_trans; [exact H1|apply H2].
  Qed.
  (* reading the state: the continuation may use it *)
  Lemma tame_get_bind B (k : _ -> MM B) : (forall s0, tame (k s0)) -> tame (mbind (mget_ (fun s => s)) k).
  Proof. intros H s. unfold mbind, mget_. apply H. Qed.
  Lemma tame_mod f : (forall s, a_ff (f s) = a_ff s) -> (forall s, a_opts (f s) = a_opts s) -> (forall s, exists t, a_trace (f s) = a_trace s ++ t) -> tame (mmod f).
  Proof.
    intros H1 H2 H3 s. cbn. unfold grew, ws_of. rewrite H1, H2. split; [reflexivity|]. split; [reflexivity|]. split; [apply H3|left; reflexivity].
  Qed.
  Lemma tame_fun A (m : ast T D L -> MM A) : (forall s0, tame (m s0)) -> tame (fun s => m s s).
  Proof. intros H s. apply H. Qed.
  Ltac md := apply tame_mod; intros; [reflexivity|reflexivity|first [exists []; rewrite app_nil_r; reflexivity|eexists; reflexivity]].
  Ltac tame1 := first
    [ apply tame_ret | apply tame_lift | assumption
    | apply tame_get_bind; intro | apply tame_bind; [|intro] | md ].
  Ltac tames := repeat (cbv zeta; tame1; cbv beta).
  Lemma tame_log e : tame (log_event e). Proof. unfold log_event. md. Qed.
  Lemma tame_ghost g : tame (ghost_event g). Proof. unfold ghost_event. md. Qed.
  Ltac prt := match goal with |- tame ?m => apply (tame_fun _ (fun s0 => if _ s0 then log_event (_ s0) else mret tt)) end.
  Lemma tame_if A (b : bool) (m1 m2 : MM A) : tame m1 -> tame m2 -> tame (if b then m1 else m2).
  Proof. destruct b; auto. Qed.
  Lemma tame_iterline t : tame (PrintIterLine O t).
  Proof. intro s. unfold PrintIterLine. destruct (is_iter _); [apply tame_log|apply tame_ret]. Qed.
  Lemma tame_iterheader : tame PrintIterHeader.
  Proof. intro s. unfold PrintIterHeader. destruct (is_iter _); [apply tame_log|apply tame_ret]. Qed.
  Lemma tame_detheader : tame (PrintDetailedHeader O).
  Proof. intro s. unfold PrintDetailedHeader. destruct (is_det _); [apply tame_log|apply tame_ret]. Qed.
  Lemma tame_detline i t : tame (PrintDetailedLine i t).
  Proof. intro s. unfold PrintDetailedLine. destruct (is_det _); [apply tame_log|apply tame_ret]. Qed.
  Lemma tame_detfooter t : tame (PrintDetailedFooter O t).
  Proof. intro s. unfold PrintDetailedFooter. destruct (is_det _); [apply tame_log|apply tame_ret]. Qed.
  Lemma tame_final e t : tame (PrintFinal e t).
  Proof. intro s. unfold PrintFinal. destruct (ge_final _); [apply tame_log|apply tame_ret]. Qed.
  Ltac tame2 := first [apply tame_log|apply tame_ghost|apply tame_iterline|apply tame_iterheader|apply tame_detheader|apply tame_detline|apply tame_detfooter|apply tame_final|apply tame_if|tame1].
  Ltac go := repeat (cbv zeta; tame2; cbv beta).
  Lemma tame_output e el E0 : tame (PrepareOutput O e el E0).
  Proof. unfold PrepareOutput. go. Qed.
  Lemma tame_copy : tame (CopyIntoVariable O DI).
  Proof. unfold CopyIntoVariable. go. Qed.
  Lemma tame_write k x : tame (WriteVariable k x).
  Proof. unfold WriteVariable. go. Qed.
  Lemma tame_pnr x : tame (rk_pnr O DI x).
  Proof. unfold rk_pnr. go. Qed.
  Lemma tame_ri x xb s : tame (ri_inner O DI x xb s).
  Proof. unfold ri_inner. go. Qed.
  Lemma tame_ls fuel : forall j t m0 cm sigma, tame (linesearch O DI fuel j t m0 cm sigma).
  Proof. induction fuel as [|fuel IH]; intros; cbn [linesearch]; [apply tame_ret|]. repeat (cbv zeta; first [apply tame_ri|apply IH|tame2]; cbv beta). Qed.
  Lemma tame_newton sigma : tame (newton_step O DI LS sigma).
  Proof.
    unfold newton_step. apply tame_get_bind. intro s0. destruct (ls_init LS _ _ _ _) as [ls' rb].
    repeat (cbv zeta; first [apply tame_ls|match goal with |- tame (let '(_,_) := ?a in _) => destruct a | |- tame (let (_,_) := ?a in _) => destruct a end|tame2]; cbv beta).
  Qed.
  Lemma tame_inner fuel : forall i t Eo tol sigma Ek, tame (inner_loop O DI LS fuel i t Eo tol sigma Ek).
  Proof.
    induction fuel as [|fuel IH]; intros; cbn [inner_loop]; [apply tame_ret|].
    repeat (cbv zeta; first [apply tame_ri|apply tame_pnr|apply tame_newton|apply IH|tame2]; cbv beta).
  Qed.
  Lemma tame_sub tol sigma Ek : tame (SolveProximalSubproblem O DI LS tol sigma Ek).
  Proof. unfold SolveProximalSubproblem. repeat (cbv zeta; first [apply tame_inner|tame2]; cbv beta). Qed.
  (* the check, once its step is in the trace *)
  Lemma grew_check s : p_check_feas (a_opts s) = true -> In (GProx (fv_x (a_dx s))) (a_trace s) -> grew s (fst (CheckForInfeasibility O DI s)).
  Proof.
    intros CF I. unfold CheckForInfeasibility, mbind, mget_, mlift, mmod, mret.
    destruct (ff_check O DI (a_dx s) (p_infeas_tol (a_opts s)) (a_ff s)) as [[f' fs]|e|u] eqn:E; cbn [fst]; try apply grew_refl.
    assert (ED : ff_data f' = ff_data (a_ff s)).
    { unfold ff_check in E. repeat match type of E with rbind ?r _ = _ => destruct r; cbn [rbind] in E; [|discriminate E|discriminate E] end.
      injection E as <- _. reflexivity. }
    split; [exact ED|]. split; [reflexivity|]. split; [exists []; rewrite app_nil_r; reflexivity|].
    right. split; [exact CF|]. exists (fv_x (a_dx s)). split; [exact I|]. exists (a_dx s), (p_infeas_tol (a_opts s)), (a_ff s), f', fs. auto.
  Qed.
  Lemma tame_prox k el sigma E0 fuel : forall itol, tame (prox_loop O DI LS k el sigma E0 fuel itol).
  Proof.
    induction fuel as [|fuel IH]; intro itol; cbn [prox_loop].
    - repeat (cbv zeta; first [apply tame_output|apply tame_write|tame2]; cbv beta).
    - apply tame_get_bind; intro s0. apply tame_bind; [apply tame_pnr|intros _]. apply tame_get_bind; intro s1. cbv zeta.
      apply tame_if; [repeat (cbv zeta; first [apply tame_output|apply tame_write|tame2]; cbv beta)|].
      apply tame_bind; [tame2|intros _]. apply tame_bind; [tame2|intros _]. apply tame_bind; [tame2|intro it]. apply tame_bind; [tame2|intros _].
      apply tame_bind; [tame2|intros _]. apply tame_bind; [apply tame_sub|intro Eo].
      intro s. unfold mbind at 1, mget_ at 1. destruct (p_max_newton (a_opts s) <=? a_newton s)%Z.
      + apply tame_bind; [apply tame_if|intros _]; repeat (cbv zeta; first [apply tame_output|apply tame_write|apply tame_pnr|tame2]; cbv beta).
      + cbv zeta. unfold mbind at 1, mlift at 1. destruct (fv_axpy O DI (o_mone O) (a_xk s) (fv_copy (a_xi s) (a_dx s))) as [dx|e|u]; cbn [fst]; try apply grew_refl.
        unfold mbind at 1, mmod at 1. unfold mbind at 1, ghost_event at 1, mmod at 1.
        set (s' := set_trace _ _).
        assert (G1 : grew s s').
        { split; [reflexivity|]. split; [reflexivity|]. split; [eexists; reflexivity|left; reflexivity]. }
        eapply grew_trans; [exact G1|].
        set (cont := fun ef : exit_flag => _).
        assert (TC : forall ef, tame (cont ef)).
        { intro ef. unfold cont. destruct ef; repeat (cbv zeta; first [apply tame_output|apply tame_write|apply IH|tame2]; cbv beta). }
        unfold mbind at 1. destruct (p_check_feas (a_opts s)) eqn:CF; [|unfold mret; apply TC].
        assert (G2 : grew s' (fst (CheckForInfeasibility O DI s'))).
        { apply grew_check; [exact CF|]. cbn. apply in_or_app. right. left. reflexivity. }
        destruct (CheckForInfeasibility O DI s') as [s2 [ef|e|u]]; cbn [fst] in *; try exact G2.
        eapply grew_trans; [exact G2|apply TC].
  Qed.
  (* Solve after linking the data *)
  Local Open Scope m_scope.
  Definition solve_rest (d : D) (k : vkind) (elapsed : T) : MM (solver_out T) :=
    s <~ mget_ (fun s => s) ;;
    let sigma := p_sigma0 (a_opts s) in
    mmod (set_combo (combo_of O DI (a_opts s) d)) ;~
    CopyIntoVariable O DI ;~
    s <~ mget_ (fun s => s) ;;
    mmod (set_xi (fv_copy (a_xk s) (a_xi s))) ;~
    dx <~ mlift (fv_fill O DI (o_one O) (a_dx s)) ;;
    mmod (set_dx dx) ;~
    rk_pnr O DI (a_xk s) ;~
    s <~ mget_ (fun s => s) ;;
    mmod (set_ri (fr_fill (o_zero O) (a_ri s))) ;~
    let E0 := rsd_norm O (fr_r (a_rk s)) in
    inner_tol <~ mlift (saturate O E0 (p_inner_tol_min (a_opts s)) (p_inner_tol_max (a_opts s))) ;;
    mmod (set_newton 0%Z) ;~
    mmod (set_prox 0%Z) ;~
    PrintIterHeader ;~
    prox_loop O DI LS k elapsed sigma E0 (Z.to_nat (p_max_prox (a_opts s))) inner_tol.
  Lemma solve_split d k el : Solve O DI LS d k el = (mmod (set_alphas LS) ;~ (mmod (link_all LS (PLive d)) ;~ solve_rest d k el)).
  Proof. reflexivity. Qed.
  Lemma bind_mod A f (m : MM A) s : (mmod f ;~ m) s = m (f s).
  Proof. reflexivity. Qed.
  Lemma tame_solve_rest d k el : tame (solve_rest d k el).
  Proof. unfold solve_rest. repeat (cbv zeta; first [apply tame_prox|apply tame_pnr|apply tame_copy|tame2]; cbv beta). Qed.
  Lemma tame_rest d k el s :
    let s' := fst (Solve O DI LS d k el s) in
    a_opts s' = a_opts s /\
    (ws_of s' = ws_of s \/ p_check_feas (a_opts s) = true /\ exists dx, In (GProx dx) (a_trace s') /\ left_by (PLive d) dx (ws_of s')).
  Proof.
    rewrite solve_split, !bind_mod. destruct (tame_solve_rest d k el (link_all LS (PLive d) (set_alphas LS s))) as (A1 & A2 & A3 & A4).
    cbv zeta. split; [exact A2|exact A4].
  Qed.
End Frame.

(* ---------------------------------------------------------------- the dense solver *)
Section DenseWork.
  Context {T : Type} (O : Ops T) (LA : LinAlg T).
  Notation DI := (denseDI O).
  Lemma gemv_len M x a b y r : dense_gemv O M x a b y = Ok r -> mr M = length y /\ length r = length y.
  Proof.
    unfold dense_gemv. destruct ((mc M =? length x) && (mr M =? length y)) eqn:E; cbn [ub_unless rbind]; [|discriminate].
    intro H. injection H as <-. apply andb_prop in E. destruct E as [_ E]. apply Nat.eqb_eq in E. split; [exact E|].
    unfold tab. rewrite map_length, seq_length. exact E.
  Qed.
  (* what a check leaves does not depend on what it found *)
  Lemma dense_left d nz nl nv dx w : dense_ok d nz nl nv -> left_by O DI (PLive d) dx w ->
    forall tol w0, fst (pfeas O DI d nz nl nv tol w0 dx) = w.
  Proof.
    intros DO (x & tol & f & f' & fs & <- & EF & E & ->) tol' [[a0 b0] c0]. pose proof (dense_data_ok O d _ _ _ DO) as DK.
    destruct DO as [Hr Hc Gr Gc Ar Ac Hf Hh Hb].
    unfold ff_check in E. rewrite EF in E. cbn [deref_checked rbind] in E.
    apply rbind_ok in E. destruct E as (tv & E1 & E). apply rbind_ok in E. destruct E as ([] & _ & E).
    apply rbind_ok in E. destruct E as (tl & E2 & E). apply rbind_ok in E. destruct E as (tz & E3 & E).
    apply rbind_ok in E. destruct E as (tf & E4 & E). apply rbind_ok in E. destruct E as ([] & _ & E).
    apply rbind_ok in E. destruct E as (t1 & E5 & E). apply rbind_ok in E. destruct E as (t2 & E6 & E).
    apply rbind_ok in E. destruct E as (b1 & E7 & E). apply rbind_ok in E. destruct E as (h1 & E8 & E).
    apply rbind_ok in E. destruct E as ([] & _ & E). injection E as <- _.
    destruct (gemv_len _ _ _ _ _ _ E1) as (L1 & L1'). destruct (gemv_len _ _ _ _ _ _ E2) as (L2 & L2'). destruct (gemv_len _ _ _ _ _ _ E3) as (L3 & L3').
    rewrite L3', <- L3, Hr in E4.
    destruct (dk_f _ _ _ _ _ DK (o_one O) (vconst nz (o_zero O)) (vconst_len _ _)) as (tf' & F4 & LF). rewrite F4 in E4. injection E4 as <-.
    rewrite LF in E5. rewrite L1', <- L1, Ar in E7. rewrite L2', <- L2, Gr in E8.
    unfold pfeas, ffw, gGT, gAT, ah, ab. cbn [fst ff_tz ff_tl ff_tv]. rewrite E5. cbn [unres]. rewrite E6, E7, E8. reflexivity.
  Qed.
  (* after a Solve the work vectors are the ones of before, or what the check of one of its steps left *)
  Lemma dense_work nz nl nv s qp k x el : dense_reach O LA nz nl nv s -> y_fits k x (Z.to_nat nv) ->
    let s' := fst (FBstabDense_Solve O LA s qp k x el) in let r := snd (FBstabDense_Solve O LA s qp k x el) in
    ws_of (ds_alg s') = ws_of (ds_alg s) \/
    p_check_feas (ds_options s) = true /\ exists d dx,
      DenseData_ctor O (Some (q_H qp)) (Some (q_f qp)) (Some (q_G qp)) (Some (q_h qp)) (Some (q_A qp)) (Some (q_b qp)) = Ok d /\
      dense_validate s d x = Ok tt /\
      In (GProx dx) (sr_trace r) /\ left_by O DI (PLive d) dx (ws_of (ds_alg s')).
  Proof.
    intros R Y. cbv zeta. unfold FBstabDense_Solve. destruct (DenseData_ctor _ _ _ _ _ _ _) as [d|e|u] eqn:Ed; try (left; reflexivity).
    destruct (dense_validate s d x) as [[]|e|u] eqn:Ev; try (left; reflexivity).
    unfold call_solve. set (s0 := set_trace [] (set_log [] (set_caller x (ds_alg s)))).
    pose proof (tame_rest O DI (denseLS O LA) d k el s0) as TR. destruct (Solve O DI (denseLS O LA) d k el s0) as [s1 r] eqn:ES.
    cbn [fst snd ds_alg sr_trace] in TR |- *. destruct TR as (_ & [TR|(CF & dx & I & LB)]); [left; exact TR|right].
    split; [exact CF|]. exists d, dx. repeat (split; [first [reflexivity|assumption]|]). exact LB.
  Qed.
End DenseWork.

(* ---------------------------------------------------------------- the checks of one run *)
Section RunChecks.
  Context {T : Type} (O : Ops T) (o : params T) (pb : prob T) (el E0 : T).
  Lemma prun_ws fuel itol xk dx ri rk w n p tr r : prun O o pb el E0 fuel itol xk dx ri rk w n p tr r ->
    forall out xw, r = Ok (out, xw) -> infeas (so_eflag out) = true ->
    exists w', so_eflag out = flag_of (snd (pb_feas pb w' xw)) /\ In (GProx xw) tr /\
      (w' = w \/ exists w'' dx', In (GProx dx') tr /\ w' = fst (pb_feas pb w'' dx')).
  Proof.
    induction 1; intros out xw ER IF; try discriminate ER.
    - injection ER as <- <-. discriminate IF.
    - injection ER as <- <-. discriminate IF.
    - injection ER as <- <-. discriminate IF.
    - injection ER as <- <-. exists w. match goal with H : pb_feas pb w _ = _ |- _ => rewrite H end.
      split; [reflexivity|]. split; [right; apply in_or_app; right; right; left; reflexivity|left; reflexivity].
    - destruct (IHprun out xw ER IF) as (w' & A & B & C). exists w'. split; [exact A|].
      assert (IN : forall g, In g tr2 -> In g (GSub itol it Ek xk :: tr ++ [GProject (proj_duals O xi); GProx dx2] ++ tr2)).
      { intros g Hg. right. apply in_or_app. right. apply in_or_app. right. exact Hg. }
      split; [apply IN; exact B|]. destruct C as [C|(w'' & dx' & C1 & C2)].
      + subst w'. match goal with H : _ \/ _ |- _ => destruct H as [[_ H]|[_ H]] end; [|left; assumption].
        right. exists w, dx2. split; [right; apply in_or_app; right; right; left; reflexivity|].
        match goal with H : pb_feas pb w dx2 = _ |- _ => rewrite H end. reflexivity.
      + right. exists w'', dx'. split; [apply IN; exact C1|exact C2].
  Qed.
End RunChecks.

(* ---------------------------------------------------------------- steps that keep the work vectors finite *)
Local Open Scope R_scope.
(* the numbers that the feasibility check of a step with multipliers l, v writes down: nothing larger than M *)
Record moderate_step (P : QP) (M : R) (l v : nat -> R) : Prop := {
  ms_rows : forall i, (i < n_z P)%nat -> ray_terms P l v i <= M;
  ms_h : forall k, (k < n_l P)%nat -> Rabs (ch P k) <= M;
  ms_b : forall k, (k < n_v P)%nat -> Rabs (cb P k) <= M }.
Lemma moderate_weaken P M tol l v : moderate_multipliers P M tol l v -> moderate_step P M l v.
Proof. intros [ ]. constructor; assumption. Qed.

Section FiniteCheck.
  Context {T : Type} {O : Ops T} {fin : T -> Prop} {val : T -> R} {u eta big : R}.
  Hypothesis W : Rounded O fin val u eta.
  Hypothesis G : Ranged O fin val u eta big.
  Notation vv := (fun x i => val (vget O x i)).
  Definition ws_fins (nz nl nv : nat) (w : ws T) : Prop :=
    let '(a, b, c) := w in fins O fin nz a /\ fins O fin nl b /\ fins O fin nv c.
  (* the multipliers of the step dx are finite and moderate *)
  Definition good_step (P : QP) (M : R) (dx : var T) : Prop :=
    fins O fin (n_l P) (v_l dx) /\ fins O fin (n_v P) (v_v dx) /\ moderate_step P M (vv (v_l dx)) (vv (v_v dx)).
  Lemma check_finite {D} (DI : DataI T D) (d : D) (P : QP) (K : nat) (C : R) (stale : vec T -> Prop) (M g : R) :
    InRange (O:=O) (fin:=fin) (val:=val) (u:=u) (eta:=eta) (big:=big) DI d P K C stale ->
    DataOk DI d (n_z P) (n_l P) (n_v P) -> 0 <= C <= 2 * INR K ->
    (1 + u) ^ (4 * K) <= 1 + g -> g <= 1 / 8 -> 1 <= M -> 2 * M <= big -> INR K * eta <= 1 / 16 ->
    forall tol w0 x, var_ok (n_z P) (n_l P) (n_v P) x -> good_step P M x ->
    ws_fins (n_z P) (n_l P) (n_v P) (fst (pfeas O DI d (n_z P) (n_l P) (n_v P) tol w0 x)).
  Proof.
    intros IR DK HC Hg Hg8 M1 MB KE tol [[a0 b0] c0] x (Vz & Vl & Vv & _) (Fl & Fv & [Mr Mh Mb]).
    pose proof (pos_INR K) as IK. unfold pfeas, ws_fins. cbn [fst].
    assert (SM := safe_mod W K M g Hg Hg8 M1 MB KE).
    split; [|split].
    - destruct (ir_AT _ _ _ _ _ _ IR (v_v x) (vconst (n_z P) (o_zero O)) Vv (vconst_len _ _) Fv) as (t1 & ET1 & LT1 & Q1).
      destruct (ir_GT _ _ _ _ _ _ IR (v_l x) t1 Vl LT1 Fl) as (t2 & ET2 & LT2 & Q2).
      unfold gGT, gAT. rewrite ET1. cbn [unres]. rewrite ET2. cbn [unres].
      intros i Hi. destruct (nr_zero W (n_z P) i Hi) as (FZ & NZ). specialize (Mr i Hi). unfold ray_terms in Mr.
      pose proof (rsum_abs_pos (n_l P) (fun j => cG P j i * vv (v_l x) j)) as S1. pose proof (rsum_abs_pos (n_v P) (fun j => cA P j i * vv (v_v x) j)) as S2.
      destruct (Q1 i Hi FZ 0%nat 0 0 0 (Rle_refl 0) NZ) as (Fq & Nq).
      { apply (SM _ _ _ 0); [lia|lra|lra|lra]. }
      assert (C0 : 0 <= 0 + C) by lra.
      destruct (Q2 i Hi Fq (0 + K)%nat (0 + C) _ _ C0 Nq) as (Fr & _); [|exact Fr].
      apply (SM _ _ _ 0); [lia|lra|lra|lra].
    - destruct (ir_h _ _ _ _ _ _ IR) as (c1 & EC & _ & QC). unfold ah. rewrite EC. cbn [unres]. intros i Hi.
      apply QC; [exact Hi|]. apply (SM _ _ _ 0); [lia|lra|lra|]. split; [apply Rabs_pos|apply Mh; exact Hi].
    - destruct (ir_b _ _ _ _ _ _ IR) as (c1 & EC & _ & QC). unfold ab. rewrite EC. cbn [unres]. intros i Hi.
      apply QC; [exact Hi|]. apply (SM _ _ _ 0); [lia|lra|lra|]. split; [apply Rabs_pos|apply Mb; exact Hi].
  Qed.
End FiniteCheck.

Section RunWs.
  Context {T D : Type} (O : Ops T) (DI : DataI T D) (d : D) (nz nl nv : nat) (o : params T) (x : var T) (el : T) (r : solve_result T).
  Context pinit pst stale (w : ws T) (CD : call_desc O DI d nz nl nv o x el r pinit pst stale w).
  Notation pb := (prob_of O DI d nz nl nv pinit pst o).
  Lemma call_ws out : sr_out r = Ok out -> infeas (so_eflag out) = true ->
    exists w', so_eflag out = flag_of (snd (pb_feas pb w' (sr_x r))) /\ 
      (w' = w \/ exists w'' dx, In (GProx dx) (sr_trace r) /\ w' = fst (pb_feas pb w'' dx)).
  Proof.
    intros E IF. pose proof (cd_run _ _ _ _ _ _ _ _ _ _ _ _ _ _ CD) as RUN. unfold psolve in RUN.
    destruct (saturate _ _ _ _) as [it|e|u']; cbn [wlift wbind] in RUN.
    2:{ rewrite RUN in E. discriminate E. } 2:{ rewrite RUN in E. discriminate E. }
    cbn [wlog wbind app] in RUN.
    pose proof (pprox_prun O o pb el (rsd_norm O (pb_pnr pb (pstart pb x))) (Z.to_nat (p_max_prox o)) it
                   (pstart pb x) (pones O pb nz nl nv) stale (pb_pnr pb (pstart pb x)) w 0%Z 0%Z) as PR.
    destruct (pprox O o pb el _ _ _ _ _ _ _ _ _ _) as [[lg tr] rr]. cbn [fst snd app] in *.
    destruct rr as [[out' xw]|e|u']; cbn [presult] in RUN; rewrite RUN in E |- *; cbn [sr_out sr_x sr_trace] in *; try discriminate E.
    injection E as <-. destruct (prun_ws O o pb _ _ _ _ _ _ _ _ _ _ _ _ _ PR out' xw eq_refl IF) as (w' & A & B & C).
    exists w'. split; assumption.
  Qed.
  Lemma call_steps dx : In (GProx dx) (sr_trace r) -> var_ok nz nl nv dx.
  Proof.
    intro I. apply in_split in I. destruct I as (pre & post & E). pose proof (call_events O _ _ _ _ _ _ _ _ _ _ _ _ _ CD _ _ _ E) as X.
    cbn [ev_ok] in X. apply X.
  Qed.
End RunWs.

Section DenseRange.
  Context {T : Type} (O : Ops T) (fin : T -> Prop) (val : T -> R) (LA : LinAlg T) {u eta big : R}.
  Hypothesis W : Rounded O fin val u eta.
  Hypothesis G : Ranged O fin val u eta big.
  (* the exact problem that the data of qp stands for, and the number of roundings *)
  Definition exact_qp (qp : dense_qp T) : QP := qp_val (O:=O) (val:=val) (q_H qp) (q_f qp) (q_G qp) (q_h qp) (q_A qp) (q_b qp).
  Definition roundings (qp : dense_qp T) : nat := (length (q_f qp) + length (q_h qp) + length (q_b qp) + 4)%nat.
  Lemma dense_range_call nz nl nv s qp d k x el : dense_finite fin qp -> dense_reach O LA nz nl nv s ->
    DenseData_ctor O (Some (q_H qp)) (Some (q_f qp)) (Some (q_G qp)) (Some (q_h qp)) (Some (q_A qp)) (Some (q_b qp)) = Ok d ->
    dense_validate s d x = Ok tt -> y_fits k x (Z.to_nat nv) ->
    let P := exact_qp qp in
    Z.to_nat nz = n_z P /\ Z.to_nat nl = n_l P /\ Z.to_nat nv = n_v P /\
    dense_ok d (n_z P) (n_l P) (n_v P) /\
    call_desc O (denseDI O) d (n_z P) (n_l P) (n_v P) (ds_options s) x el (snd (FBstabDense_Solve O LA s qp k x el))
      (d_pinit O LA d (n_z P) (n_l P) (n_v P)) (d_pst O LA d (n_z P) (n_l P) (n_v P)) (stale_of O (ds_alg s)) (ws_of (ds_alg s)) /\
    exists C, 0 <= C <= 2 * INR (roundings qp) /\
      InRange (O:=O) (fin:=fin) (val:=val) (u:=u) (eta:=eta) (big:=big) (denseDI O) d P (roundings qp) C (fun y => fins O fin (length y) y).
  Proof.
    intros Hf Hr Hc Hv Hy. destruct (dense_desc O LA _ _ _ _ _ _ k _ el Hr Hc Hv Hy) as [DO CD].
    assert (Ed : d = mkDD (length (q_f qp)) (length (q_h qp)) (length (q_b qp)) (dd_fnorm d) (q_H qp) (q_G qp) (q_A qp) (q_f qp) (q_h qp) (q_b qp)).
    { pose proof Hc as Hc'. unfold DenseData_ctor in Hc'. cbn [arg rbind] in Hc'.
      do 3 (destruct (_ && _)%bool; cbn [throw_unless rbind] in Hc'; [|discriminate Hc']).
      injection Hc' as <-. reflexivity. }
    assert (E1 : Z.to_nat nz = length (q_f qp)) by (destruct DO; rewrite <- do_f, Ed; reflexivity).
    assert (E2 : Z.to_nat nl = length (q_h qp)) by (destruct DO; rewrite <- do_h, Ed; reflexivity).
    assert (E3 : Z.to_nat nv = length (q_b qp)) by (destruct DO; rewrite <- do_b, Ed; reflexivity).
    rewrite E1, E2, E3 in CD, DO. destruct Hf as (fH & ff & fG & fh & fA & fb).
    assert (RG := dense_range W G d _ _ _ DO). cbv zeta.
    split; [exact E1|]. split; [exact E2|]. split; [exact E3|]. split; [exact DO|]. split; [exact CD|].
    exists (2 * INR (length (q_f qp) + length (q_h qp) + length (q_b qp)) + 3). split.
    - unfold roundings. rewrite (plus_INR _ 4). pose proof (pos_INR (length (q_f qp) + length (q_h qp) + length (q_b qp))). cbn [INR]. lra.
    - assert (X : exact_qp qp = dense_qp_val (O:=O) (val:=val) d) by (rewrite Ed; reflexivity). rewrite X.
      apply RG; rewrite Ed; cbn [dd_H dd_G dd_A dd_f dd_h dd_b]; first [eapply mfin_all; eassumption|eapply fins_all; eassumption].
  Qed.
End DenseRange.

Section WorkMain.
  Context {T : Type} {O : Ops T} {fin : T -> Prop} {val : T -> R} {u eta big : R}.
  Hypothesis W : Rounded O fin val u eta.
  Hypothesis G : Ranged O fin val u eta big.
  Context (LA : LinAlg T).
  Notation vv := (fun x i => val (vget O x i)).
  Notation exact := (exact_qp O val).
  (* the checks of this Solve write moderate numbers *)
  Definition good_steps (M : R) (qp : dense_qp T) (r : solve_result T) : Prop :=
    forall dx, In (GProx dx) (sr_trace r) -> good_step (O:=O) (fin:=fin) (val:=val) (exact qp) M dx.

  Lemma fins_Forall v n : length v = n -> (fins O fin n v <-> Forall fin v).
  Proof.
    intros <-. split; intro H.
    - apply Forall_forall. intros a Ha. destruct (In_nth v a (o_zero O) Ha) as (i & Hi & <-). apply H. exact Hi.
    - apply (fins_all O fin val W). exact H.
  Qed.
  Lemma ws_work s nz nl nv : ws_ok nz nl nv (ws_of (ds_alg s)) ->
    (ws_fins (O:=O) (fin:=fin) nz nl nv (ws_of (ds_alg s)) <-> Forall fin (work_vectors s)).
  Proof.
    unfold ws_of, ws_ok, ws_fins, work_vectors. intros (L1 & L2 & L3). rewrite !Forall_app, !fins_Forall by assumption. tauto.
  Qed.

  Theorem C14_work_vectors_finite : forall nz nl nv s qp k x el M g,
    let s' := fst (FBstabDense_Solve O LA s qp k x el) in let r := snd (FBstabDense_Solve O LA s qp k x el) in
    let K := (Z.to_nat nz + Z.to_nat nl + Z.to_nat nv + 4)%nat in
    (1 + u) ^ (4 * K) <= 1 + g -> g <= 1 / 8 -> 1 <= M -> 2 * M <= big -> INR K * eta <= 1 / 16 ->
    dense_reach O LA nz nl nv s -> y_fits k x (Z.to_nat nv) -> Forall fin (work_vectors s) ->
    (p_check_feas (ds_options s) = true -> dense_finite fin qp /\ good_steps M qp r) ->
    Forall fin (work_vectors s').
  Proof.
    intros nz nl nv s qp k x el M g s' r K Hg Hg8 M1 MB KE R Y F GS.
    destruct (dense_work O LA nz nl nv s qp k x el R Y) as [E|(CF & d & dx & Ec & Ev & I & LB)].
    - fold s' in E. assert (EW : work_vectors s' = work_vectors s) by (unfold ws_of in E; injection E as E1 E2 E3; unfold work_vectors; rewrite E1, E2, E3; reflexivity).
      rewrite EW. exact F.
    - destruct (GS CF) as (DF & GD). fold s' in LB. fold r in I.
      destruct (dense_range_call O fin val LA W G nz nl nv s qp d k x el DF R Ec Ev Y) as (E1 & E2 & E3 & DO & CD & C & HC & IR).
      assert (EK : K = roundings qp) by (unfold K, roundings; rewrite E1, E2, E3; reflexivity).
      rewrite EK in Hg, KE. fold r in CD. cbv zeta in *. set (P := exact qp) in *.
      pose proof (call_steps O _ _ _ _ _ _ _ _ _ _ _ _ _ CD dx I) as VO.
      pose proof (check_finite W (denseDI O) d P (roundings qp) C _ M g IR (cd_data _ _ _ _ _ _ _ _ _ _ _ _ _ _ CD) HC Hg Hg8 M1 MB KE
        (p_infeas_tol (ds_options s)) (ws_of (ds_alg s)) dx VO (GD dx I)) as X.
      rewrite (dense_left O d _ _ _ dx _ DO LB) in X.
      refine (proj1 (ws_work s' (n_z P) (n_l P) (n_v P) _) X).
      assert (R' : dense_reach O LA nz nl nv s') by (apply dr_solve; assumption).
      pose proof (dense_reach_inv _ _ _ _ _ _ R') as Hi. destruct Hi as (_ & _ & _ & _ & _ & _ & Hast).
      destruct Hast as (_ & _ & _ & _ & _ & _ & (_ & _ & _ & Hff) & _). rewrite <- E1, <- E2, <- E3. exact Hff.
  Qed.

  (* the dual certificate of the dense solver *)
  Theorem C69_dense_dual_certificate : forall nz nl nv s qp d k x el out M g,
    let r := snd (FBstabDense_Solve O LA s qp k x el) in let P := exact qp in let o := ds_options s in let K := roundings qp in
    dense_finite fin qp -> dense_reach O LA nz nl nv s ->
    DenseData_ctor O (Some (q_H qp)) (Some (q_f qp)) (Some (q_G qp)) (Some (q_h qp)) (Some (q_A qp)) (Some (q_b qp)) = Ok d ->
    dense_validate s d x = Ok tt -> y_fits k x (Z.to_nat nv) ->
    Forall fin (work_vectors s) -> good_steps M qp r ->
    sr_out r = Ok out -> so_eflag out = DUAL_INFEASIBLE \/ so_eflag out = PRIMAL_DUAL_INFEASIBLE ->
    fin (p_infeas_tol o) -> 0 <= val (p_infeas_tol o) -> fin (o_dec O 1 (-14)) ->
    (1 + u) ^ (4 * K) <= 1 + g -> g <= 1 / 8 -> 1 <= M -> 2 * M <= big -> INR K * eta <= 1 / 16 ->
    let z := vv (v_z (sr_x r)) in
    fins O fin (n_z P) (v_z (sr_x r)) ->
    moderate_direction P M (val (p_infeas_tol o)) z ->
    dual_ray P K g eta (val (p_infeas_tol o)) (val (o_dec O 1 (-14))) z.
  Proof.
    intros nz nl nv s qp d k x el out M g. cbv zeta. set (r := snd _). intros DF R Ec Ev Y FW GS E F Ft Ht Fd Hg Hg8 M1 MB KE Fz MM.
    destruct (dense_range_call O fin val LA W G nz nl nv s qp d k x el DF R Ec Ev Y) as (E1 & E2 & E3 & DO & CD & C & HC & IR).
    fold r in CD. set (P := exact qp) in *.
    assert (IFL : infeas (so_eflag out) = true) by (destruct F as [->| ->]; reflexivity).
    destruct (call_ws O _ _ _ _ _ _ _ _ _ _ _ _ _ CD out E IFL) as (w' & EF & HW).
    set (pb := prob_of _ _ _ _ _ _ _ _ _) in *.
    assert (WO : ws_ok (n_z P) (n_l P) (n_v P) w' /\ ws_fins (O:=O) (fin:=fin) (n_z P) (n_l P) (n_v P) w').
    { pose proof (cd_ws _ _ _ _ _ _ _ _ _ _ _ _ _ _ CD) as W0. destruct HW as [->|(w'' & dx & I & ->)].
      - split; [exact W0|]. apply (proj2 (ws_work s _ _ _ W0)). exact FW.
      - pose proof (call_steps O _ _ _ _ _ _ _ _ _ _ _ _ _ CD dx I) as VO.
        unfold pb. cbn [pb_feas prob_of].
        split; [|apply (check_finite W (denseDI O) d P (roundings qp) C _ M g IR (cd_data _ _ _ _ _ _ _ _ _ _ _ _ _ _ CD) HC Hg Hg8 M1 MB KE); [exact VO|apply GS; exact I]].
        destruct w'' as [[a0 b0] c0]. pose proof (cd_data _ _ _ _ _ _ _ _ _ _ _ _ _ _ CD) as DK. destruct VO as (Vz & Vl & Vv & _).
        unfold pfeas. cbn [fst ws_ok]. unfold gGT, gAT, ah, ab.
        destruct (dk_AT _ _ _ _ _ DK (v_v dx) (o_one O) (o_one O) (vconst (n_z P) (o_zero O)) Vv (vconst_len _ _)) as (t1 & -> & T2). cbn [unres].
        destruct (dk_GT _ _ _ _ _ DK (v_l dx) (o_one O) (o_one O) t1 Vl T2) as (t2 & -> & U2). cbn [unres].
        destruct (dk_b _ _ _ _ _ DK (o_one O) (vconst (n_v P) (o_zero O)) (vconst_len _ _)) as (b1 & -> & B2).
        destruct (dk_h _ _ _ _ _ DK (o_one O) (vconst (n_l P) (o_zero O)) (vconst_len _ _)) as (c1 & -> & C2). cbn [unres]. auto. }
    destruct w' as [[tz tl] tv]. destruct WO as ((L1 & L2 & L3) & (S1 & S2 & S3)).
    pose proof (call_exit O _ _ _ _ _ _ _ _ _ _ _ _ _ CD) as EX. rewrite E in EX. destruct EX as (_ & VO & _).
    assert (FT : feasibility_test O (denseDI O) d (n_z P) (n_l P) (n_v P) tz tl tv (p_infeas_tol (ds_options s)) (sr_x r) = Ok (snd (pb_feas pb (tz, tl, tv) (sr_x r)))).
    { apply (br_feas O _ _ _ _ _ _ _ _ _ _ _ _ _ CD); [exact VO|]. repeat split; assumption. }
    apply (dual_test W G (denseDI O) d P (roundings qp) C _ M g IR (cd_data _ _ _ _ _ _ _ _ _ _ _ _ _ _ CD) HC) with (tz := tz) (tl := tl) (tv := tv) (fs := snd (pb_feas pb (tz, tl, tv) (sr_x r))); auto.
    - unfold P, exact_qp, roundings. cbn [n_z n_l n_v qp_val]. lia.
    - unfold P, exact_qp, roundings. cbn [n_z n_l n_v qp_val]. lia.
    - unfold P, exact_qp, roundings. cbn [n_z n_l n_v qp_val]. lia.
    - rewrite EF in F. destruct (snd (pb_feas pb (tz, tl, tv) (sr_x r))); destruct F as [F|F]; try discriminate F; auto.
    - rewrite L1. exact S1.
    - rewrite L2. exact S2.
    - rewrite L3. exact S3.
  Qed.
End WorkMain.

(* ---------------------------------------------------------------- IEEE binary64 *)
From Verif Require Import BinOps BinFwd.
From Flocq Require Import Core.Core IEEE754.BinarySingleNaN.
(* the same number, where +0 and -0 count as the same *)
Definition same_B (a b : B64) : Prop := a = b \/ exists s s', a = B754_zero s /\ b = B754_zero s'.
Lemma B_ltb_num a b c e : same_B a b -> same_B c e -> Bltb a c = Bltb b e.
Proof. intros [<-|(s & s' & -> & ->)] [<-|(t & t' & -> & ->)]; try reflexivity; destruct a || destruct c || idtac; try reflexivity. Qed.
Lemma stale_B : stale_arith Bops Bfin same_B.
Proof.
  constructor.
  - intro x. left. reflexivity.
  - intros p a b Fa Fb. cbn [o_add o_mul o_one o_zero Bops].
    assert (Z0 : forall a, Bfin a -> exists s, Bmul (B754_zero false) a = B754_zero s).
    { intros [s|s| |s m e B] F; try discriminate F; cbn; eauto. }
    destruct (Z0 a Fa) as [s ->]. destruct (Z0 b Fb) as [s' ->].
    set (q := Bmul (Bint 1) p). clearbody q. destruct q as [t|t| |t m e B]; try (left; reflexivity).
    right. destruct t, s, s'; cbn; eauto.
  - intros a b [<-|(s & s' & -> & ->)]; reflexivity.
  - intros v w F. cbn [o_maxc Bops]. destruct F as [|a b v w Hab F]; [left; reflexivity|]. cbn [Bmaxc]. revert a b Hab.
    induction F as [|c e v w Hcd F IH]; intros a b Hab; [exact Hab|]. cbn [Bmaxc_acc].
    rewrite (B_ltb_num _ _ _ _ Hab Hcd). apply IH. destruct (Bltb b e); assumption.
  - intros a b c [<-|(s & s' & -> & ->)]; reflexivity.
Qed.

Section CalmDoubles.
  Context (LA : LinAlg B64).
  Notation finite := (fun a : B64 => is_finite a = true).
  Notation good_run := (good_steps (O:=Bops) (fin:=finite) (val:=B2R) (2 ^ 1022)).
  (* the solvers whose memory was finite at the start and whose feasibility checks all had finite data and
     wrote numbers below 2^1022 *)
  Inductive calm (nz nl nv : Z) : dense_solver B64 -> Prop :=
  | calm_new g s : FBstabDense_new Bops g nz nl nv = Ok s -> Forall finite (work_vectors s) -> calm nz nl nv s
  | calm_update s o : calm nz nl nv s -> calm nz nl nv (fst (FBstabDense_UpdateOptions Bops s o))
  | calm_solve s qp k x el : calm nz nl nv s -> y_fits k x (Z.to_nat nv) ->
      (p_check_feas (ds_options s) = true ->
         dense_finite finite qp /\ good_run qp (snd (FBstabDense_Solve Bops LA s qp k x el))) ->
      calm nz nl nv (fst (FBstabDense_Solve Bops LA s qp k x el)).

  Lemma K_sizes nz nl nv : (0 <= nz -> 0 <= nl -> 0 <= nv -> nz + nl + nv + 4 <= 2 ^ 47 ->
    Z.of_nat (Z.to_nat nz + Z.to_nat nl + Z.to_nat nv + 4) <= 2 ^ 47)%Z.
  Proof. lia. Qed.
  Lemma reach_sizes nz nl nv s : dense_reach Bops LA nz nl nv s -> (0 <= nz /\ 0 <= nl /\ 0 <= nv)%Z.
  Proof. intro R. pose proof (dense_reach_inv _ _ _ _ _ _ R) as (_ & _ & _ & H). lia. Qed.
  Theorem C14_calm_finite : forall nz nl nv s, (nz + nl + nv + 4 <= 2 ^ 47)%Z -> calm nz nl nv s ->
    dense_reach Bops LA nz nl nv s /\ Forall finite (work_vectors s).
  Proof.
    intros nz nl nv s HK. induction 1 as [g s N F|s o Hs (R & F)|s qp k x el Hs (R & F) Y GS].
    - split; [eapply dr_new; exact N|exact F].
    - split; [apply dr_update; exact R|]. unfold FBstabDense_UpdateOptions. destruct (UpdateParameters _ _ _); exact F.
    - split; [apply dr_solve; assumption|]. destruct (reach_sizes _ _ _ _ R) as (N1 & N2 & N3).
      pose proof (K_sizes nz nl nv N1 N2 N3 HK) as KB. destruct (K_bound _ KB) as [G1 G2]. destruct M_big as (M1 & M2).
      exact (C14_work_vectors_finite Brounded Branged LA nz nl nv s qp k x el (2 ^ 1022) _ G1 G2 M1 M2 (K_eta _ KB) R Y F GS).
  Qed.
  Theorem C14_calm_history : forall nz nl nv s1 s2 qp k1 k2 x1 x2 el, (nz + nl + nv + 4 <= 2 ^ 47)%Z ->
    calm nz nl nv s1 -> calm nz nl nv s2 ->
    same_but_display (ds_options s1) (ds_options s2) ->
    v_z x1 = v_z x2 -> v_l x1 = v_l x2 -> v_v x1 = v_v x2 ->
    y_fits k1 x1 (Z.to_nat nv) -> y_fits k2 x2 (Z.to_nat nv) ->
    same_answer (snd (FBstabDense_Solve Bops LA s1 qp k1 x1 el)) (snd (FBstabDense_Solve Bops LA s2 qp k2 x2 el)).
  Proof.
    intros nz nl nv s1 s2 qp k1 k2 x1 x2 el HK C1 C2. destruct (C14_calm_finite _ _ _ _ HK C1) as (R1 & F1). destruct (C14_calm_finite _ _ _ _ HK C2) as (R2 & F2).
    exact (C14_finite_history stale_B LA nz nl nv s1 s2 qp k1 k2 x1 x2 el R1 R2 F1 F2).
  Qed.

  Notation vv := (fun x i => B2R (vget Bops x i)).
  Theorem C69_doubles_dense_dual : forall nz nl nv s qp d k x el out, (nz + nl + nv + 4 <= 2 ^ 47)%Z ->
    let r := snd (FBstabDense_Solve Bops LA s qp k x el) in let P := exact_qp Bops B2R qp in
    let K := roundings qp in let tol := p_infeas_tol (ds_options s) in
    calm nz nl nv s -> dense_finite finite qp ->
    DenseData_ctor Bops (Some (q_H qp)) (Some (q_f qp)) (Some (q_G qp)) (Some (q_h qp)) (Some (q_A qp)) (Some (q_b qp)) = Ok d ->
    dense_validate s d x = Ok tt -> y_fits k x (Z.to_nat nv) -> good_run qp r ->
    sr_out r = Ok out -> so_eflag out = DUAL_INFEASIBLE \/ so_eflag out = PRIMAL_DUAL_INFEASIBLE ->
    is_finite tol = true -> (forall i, (i < n_z P)%nat -> is_finite (vget Bops (v_z (sr_x r)) i) = true) ->
    let z := vv (v_z (sr_x r)) in
    moderate_direction P (2 ^ 1022) (B2R tol) z ->
    dual_ray P K (INR K / 2 ^ 50) (/ 2 ^ 1075) (B2R tol) (9999999999999998 / 10 ^ 30) z.
  Proof.
    intros nz nl nv s qp d k x el out HK. cbv zeta. intros Cs DF Ec Ev Y GS E F Ft Fz MM.
    destruct (C14_calm_finite _ _ _ _ HK Cs) as (R & FW). destruct (reach_sizes _ _ _ _ R) as (N1 & N2 & N3).
    pose proof (K_sizes nz nl nv N1 N2 N3 HK) as KB.
    destruct (dense_range_call Bops Bfin Bval LA Brounded Branged nz nl nv s qp d k x el DF R Ec Ev Y) as (E1 & E2 & E3 & _).
    assert (EK : (Z.to_nat nz + Z.to_nat nl + Z.to_nat nv + 4)%nat = roundings qp) by (unfold roundings; rewrite E1, E2, E3; reflexivity).
    rewrite EK in KB. destruct (K_bound _ KB) as [G1 G2]. destruct M_big as (M1 & M2). destruct dec14 as (F14 & V14). rewrite <- Beta_eq.
    assert (SC := sc_dense Bops LA _ _ _ _ _ _ _ _ el R Ec Ev Y).
    destruct (C69_dense_dual_certificate Brounded Branged LA nz nl nv s qp d k x el out (2 ^ 1022) _ DF R Ec Ev Y FW GS E F Ft
      (solve_itol_B _ _ _ _ _ _ _ _ _ _ _ SC Ft) F14 G1 G2 M1 M2 (K_eta _ KB) Fz MM) as [D1 D2 D3 D4 D5].
    constructor; try assumption. eapply Rle_lt_trans; [|exact D5]. apply V14.
  Qed.
End CalmDoubles.
