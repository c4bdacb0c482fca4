(* Solve over shared memory (Shared.v) refines the same pure run as Solve (Refine.v), except
   that on the Newton-limit exit the reported residual is evaluated on the reloaded data. *)
From Verif Require Export Refine Shared.

(* ---------- the pure run with its final residual evaluated by [pr] ---------- *)
Section PureShared.
  Context {T : Type} (O : Ops T) (o : params T) (pb : prob T) (pr : var T -> rsd T).

  Fixpoint pprox_shared (elapsed E0 : T) (fuel : nat) (inner_tol : T) (xk dx : var T) (ri rk : rsd T)
           (w : ws T) (newton prox : Z) : W T (solver_out T * var T) :=
    match fuel with
    | 0%nat =>
        wbind (poutput O o pb MAXITERATIONS elapsed E0 newton prox rk) (fun out => wret (out, xk))
    | S fuel' =>
        let rk := pb_pnr pb xk in
        let Ek := rsd_norm O rk in
        if o_leb O Ek (pb_combo pb) || o_leb O (var_norm O dx) (p_stall_tol o)
        then
          wbind (wlog (iter_line O o prox newton rk ri inner_tol)) (fun _ =>
          wbind (poutput O o pb SUCCESS elapsed E0 newton prox rk) (fun out => wret (out, xk)))
        else
          wbind (wlog (det_header O o prox newton rk ++ iter_line O o prox newton rk ri inner_tol)) (fun _ =>
          wbind (wlift (saturate O (o_mul O inner_tol (p_delta o)) (p_inner_tol_min o) Ek)) (fun itol =>
          wbind (wghost (GSub inner_tol itol Ek xk)) (fun _ =>
          wbind (psub O o pb itol Ek xk dx ri rk newton) (fun r =>
          let '(Eo, xi, dx, ri, rk, newton) := r in
          if (p_max_newton o <=? newton)%Z
          then
            let xr := if o_ltb O Eo Ek then xi else xk in
            wbind (poutput O o pb MAXITERATIONS elapsed E0 newton prox (pr xr)) (fun out =>
            wret (out, xr))
          else
            let dx := pb_axpy pb (o_mone O) xk xi in
            wbind (wghost (GProx dx)) (fun _ =>
            let '(w, fs) := if p_check_feas o then pb_feas pb w dx else (w, FS_FEASIBLE) in
            match flag_of fs with
            | SUCCESS => pprox_shared elapsed E0 fuel' itol xi dx ri rk w newton (prox + 1)%Z
            | ef => wbind (poutput O o pb ef elapsed E0 newton prox rk) (fun out => wret (out, dx))
            end)))))
    end.

  Definition psolve_shared (nz nl nv : nat) (elapsed : T) (stale : rsd T) (w : ws T) (c : var T)
    : W T (solver_out T * var T) :=
    let xk := pstart pb c in
    let rk := pb_pnr pb xk in
    let E0 := rsd_norm O rk in
    wbind (wlift (saturate O E0 (p_inner_tol_min o) (p_inner_tol_max o))) (fun inner_tol =>
    wbind (wlog (iter_header o)) (fun _ =>
    pprox_shared elapsed E0 (Z.to_nat (p_max_prox o)) inner_tol xk (pones O pb nz nl nv) stale rk w
                 0%Z 0%Z)).

  (* how the two runs are related: the same exceptions, traces and written point; the outputs
     and the printed lines are the same unless the Newton limit was hit, and then they differ
     only in the residual norms of the closing evaluation *)
  Definition same_but_residual (a b : solver_out T) : Prop :=
    so_eflag a = so_eflag b /\ so_newton a = so_newton b /\ so_prox a = so_prox b /\
    so_time a = so_time b /\ so_initial a = so_initial b.

  Definition shared_rel (m1 m2 : W T (solver_out T * var T)) : Prop :=
    let '(lg1, tr1, r1) := m1 in
    let '(lg2, tr2, r2) := m2 in
    tr1 = tr2 /\
    match r1, r2 with
    | Ok (o1, x1), Ok (o2, x2) =>
        x1 = x2 /\
        (((so_eflag o1 <> MAXITERATIONS \/ (so_newton o1 < p_max_newton o)%Z) /\ o1 = o2 /\ lg1 = lg2) \/
         (so_eflag o1 = MAXITERATIONS /\ (p_max_newton o <= so_newton o1)%Z /\
          same_but_residual o1 o2 /\ so_residual o1 = rsd_norm O (pb_pnr pb x1) /\
          so_residual o2 = rsd_norm O (pr x1) /\
          exists common ms,
            lg1 = common ++ final_line o pb MAXITERATIONS ms (so_prox o1) (so_newton o1) (pb_pnr pb x1) /\
            lg2 = common ++ final_line o pb MAXITERATIONS ms (so_prox o1) (so_newton o1) (pr x1)))
    | Throw e1, Throw e2 => e1 = e2 /\ lg1 = lg2
    | UB u1, UB u2 => u1 = u2 /\ lg1 = lg2
    | _, _ => False
    end.

  Lemma shared_rel_refl m : (forall out xw, snd m = Ok (out, xw) ->
      so_eflag out <> MAXITERATIONS \/ (so_newton out < p_max_newton o)%Z) -> shared_rel m m.
  Proof.
    destruct m as [[lg tr] [[out x]|e|u]]; cbn; intro H; repeat split; auto.
    left. split; [eapply H; reflexivity|auto].
  Qed.

  Lemma shared_rel_bind {A} (m : W T A) f g :
    (forall a, snd m = Ok a -> shared_rel (f a) (g a)) -> shared_rel (wbind m f) (wbind m g).
  Proof.
    destruct m as [[lg tr] [a|e|u]]; cbn [wbind snd]; intro H.
    - specialize (H a eq_refl). destruct (f a) as [[l1 t1] r1], (g a) as [[l2 t2] r2].
      unfold shared_rel in *. destruct H as [-> H]. split; [reflexivity|].
      destruct r1 as [[o1 x1]|e1|u1], r2 as [[o2 x2]|e2|u2]; try contradiction.
      + destruct H as [-> [[N [-> ->]]|(N1 & N2 & S1 & S2 & S3 & cm & ms & -> & ->)]]; split; auto.
        right. repeat (split; [assumption|]). exists (lg ++ cm), ms. rewrite !app_assoc. auto.
      + destruct H as [-> ->]; auto.
      + destruct H as [-> ->]; auto.
    - cbn. auto.
    - cbn. auto.
  Qed.

  Lemma out_rel e el E0 newton prox rk (x : var T) :
    e <> MAXITERATIONS \/ (newton < p_max_newton o)%Z ->
    shared_rel (wbind (poutput O o pb e el E0 newton prox rk) (fun out => wret (out, x)))
               (wbind (poutput O o pb e el E0 newton prox rk) (fun out => wret (out, x))).
  Proof.
    intro H. apply shared_rel_refl. intros out xw.
    unfold poutput, wbind, wlog, wret. cbn. intros [= <- <-]. cbn. exact H.
  Qed.

  Lemma pprox_rel el E0 fuel : forall itol xk dx ri rk w newton prox,
    (newton < p_max_newton o)%Z ->
    shared_rel (pprox O o pb el E0 fuel itol xk dx ri rk w newton prox)
               (pprox_shared el E0 fuel itol xk dx ri rk w newton prox).
  Proof.
    induction fuel as [|fuel IH]; intros itol xk dx ri rk w newton prox HN; cbn [pprox pprox_shared].
    - apply out_rel. right. exact HN.
    - destruct (_ || _).
      + apply shared_rel_bind. intros _ _. apply out_rel. left. discriminate.
      + apply shared_rel_bind. intros _ _. apply shared_rel_bind. intros it _.
        apply shared_rel_bind. intros _ _. apply shared_rel_bind. intros [[[[[Eo xi] dx1] ri1] rk1] n1] _.
        destruct (p_max_newton o <=? n1)%Z eqn:EN.
        * unfold poutput, wbind, wlog, wret. cbn [shared_rel fst snd].
          apply Z.leb_le in EN. split; [reflexivity|]. split; [reflexivity|]. right.
          cbn. split; [reflexivity|]. split; [exact EN|]. split; [repeat split|].
          split; [reflexivity|]. split; [reflexivity|].
          exists [], (o_mul O (o_dec O 1000 0) el). cbn. rewrite !app_nil_r. auto.
        * apply Z.leb_gt in EN. apply shared_rel_bind. intros _ _.
          destruct (if p_check_feas o then _ else _) as [w1 fs].
          destruct fs; cbn [flag_of]; try (apply out_rel; left; discriminate).
          apply IH. exact EN.
  Qed.

  Lemma psolve_rel nz nl nv el stale w c : (0 < p_max_newton o)%Z ->
    shared_rel (psolve O o pb nz nl nv el stale w c) (psolve_shared nz nl nv el stale w c).
  Proof.
    intro H. unfold psolve, psolve_shared. apply shared_rel_bind. intros it _.
    apply shared_rel_bind. intros _ _. apply pprox_rel. exact H.
  Qed.
End PureShared.

Section RefineShared.
  Context {T D L : Type} (O : Ops T) (DI : DataI T D) (LS : LSI T D L).
  Context (d : D) (nz nl nv : nat).
  Context {lsize : L -> Prop} {lready : T -> L -> Prop}
          {pinit : T -> T -> var T -> var T -> res bool}
          {pst : T -> T -> var T -> var T -> rsd T -> var T}.
  Hypothesis (HD : DataOk DI d nz nl nv) (HL : LSOk LS d nz nl nv lsize lready pinit pst) (Hnv : 0 < nv).
  Context (o : params T).
  Context (reload : var T -> D).
  Hypothesis HR : forall x, var_ok nz nl nv x -> DataOk DI (reload x) nz nl nv.
  Hypothesis HLL : forall p q l, ls_link LS p (ls_link LS q l) = ls_link LS p l.

  Notation pb := (prob_of O DI d nz nl nv pinit pst o).
  Notation vok := (var_ok nz nl nv).
  Notation rrok := (rsd_ok nz nl nv).
  Notation FV := (FV d nz nl nv).
  Notation FR := (FR d nz nl nv).
  Notation FF := (FF d nz nl nv).
  Notation St := (St d nz nl nv o).
  Notation okst := (okst nz nl nv (lready:=lready) o).

  Definition closing (x : var T) : rsd T := pb_pnr (prob_of O DI (reload x) nz nl nv pinit pst o) x.

  Ltac run := cbv beta iota zeta delta [mbind mget_ mmod mlift mret ghost_event log_event rk_pnr ri_inner
      set_opts set_combo set_newton set_prox set_xk set_xi set_xp set_dx set_rk set_ri set_ls set_ff
      set_merit set_caller set_log set_trace
      a_opts a_combo a_newton a_prox a_xk a_xi a_xp a_dx a_rk a_ri a_ls a_ff a_merit a_caller a_log
      a_trace fr_r Refine.FR fv_x fv_copy Refine.FV Refine.St fv_nz fv_nl fv_nv fv_data fst snd].

  Ltac refold := repeat match goal with
    |- context [mkAst o ?cb ?n ?p (mkFvar nz nl nv ?xk (PLive ?e)) (mkFvar nz nl nv ?xi (PLive ?e))
                      (mkFvar nz nl nv ?xp (PLive ?e)) (mkFvar nz nl nv ?dx (PLive ?e))
                      (mkFres nz nl nv ?rk (p_alpha o) (PLive ?e))
                      (mkFres nz nl nv ?ri (p_alpha o) (PLive ?e)) ?l (Refine.FF ?e nz nl nv ?w) ?m ?c ?lg ?tr] =>
      change (mkAst o cb n p (mkFvar nz nl nv xk (PLive e)) (mkFvar nz nl nv xi (PLive e))
                      (mkFvar nz nl nv xp (PLive e)) (mkFvar nz nl nv dx (PLive e))
                      (mkFres nz nl nv rk (p_alpha o) (PLive e))
                      (mkFres nz nl nv ri (p_alpha o) (PLive e)) l (Refine.FF e nz nl nv w) m c lg tr)
      with (Refine.St e nz nl nv o cb n p xk xi xp dx rk ri l w m c lg tr) end.

  (* a state after the run: sizes right once unlinked, the options kept, and what it shows *)
  Definition fin (s : ast T D L) (c : var T) lg tr : Prop :=
    ast_ok nz nl nv lsize (link_all LS PDangling (set_trace [] (set_log [] (set_caller empty_var s)))) /\
    a_opts s = o /\ a_caller s = c /\ a_log s = lg /\ a_trace s = tr.

  Lemma fin_isSt s c lg tr :
    isSt O DI d nz nl nv (lready:=lready) (pinit:=pinit) (pst:=pst) o s c lg tr -> fin s c lg tr.
  Proof. apply (isSt_ok O DI LS d nz nl nv HL o). Qed.

  (* states over reloaded data *)
  Lemma fin_reloaded e cb n p xk xi xp dx rk ri l w m c lg tr :
    okst xk xi xp dx rk ri l w ->
    fin (Refine.St e nz nl nv o cb n p xk xi xp dx rk ri (ls_link LS (PLive e) l) w m c lg tr) c lg tr.
  Proof.
    intros (Hxk & Hxi & Hxp & Hdx & Hrk & Hri & Hl & Hw).
    split; [|repeat split].
    unfold link_all, Refine.St, Refine.FF. destruct w as [[tz tl] tv]. unfold fv_link, fr_link, ff_link. run.
    unfold ast_ok, fv_ok, fr_ok, ff_ok. cbn [fr_nz fr_nl fr_nv ff_nz ff_nl ff_nv ff_tz ff_tl ff_tv fr_r].
    cbn. rewrite HLL.
    repeat (split; [now repeat split; try (apply Hxk || apply Hxi || apply Hxp || apply Hdx || apply Hrk || apply Hri || apply Hw)|]).
    apply (lo_unlink _ _ _ _ _ _ _ _ _ HL). apply (lo_size _ _ _ _ _ _ _ _ _ HL) with (al := p_alpha o). exact Hl.
  Qed.

  Lemma write_shared k cb newton prox xk xi xp dx rk ri l w merit c lg tr x :
    writable nz nl nv k c -> vok x ->
    WriteShared LS reload k (FV x) (St cb newton prox xk xi xp dx rk ri l w merit c lg tr) =
      (Refine.St (reload x) nz nl nv o cb newton prox xk xi xp dx rk ri
          (ls_link LS (PLive (reload x)) l) w merit x lg tr, Ok tt).
  Proof.
    intros Hw Hx. unfold WriteShared, mbind.
    rewrite (write_run d nz nl nv o k cb newton prox xk xi xp dx rk ri l w merit c lg tr x Hw Hx).
    unfold mget_, mmod, link_all, Refine.St, Refine.FF, Refine.FV, Refine.FR.
    destruct w as [[tz tl] tv]. unfold fv_link, fr_link, ff_link. run.
    cbn [ff_nz ff_nl ff_nv ff_tz ff_tl ff_tv fr_nz fr_nl fr_nv fr_alpha]. reflexivity.
  Qed.

  Lemma output_any (e0 : D) e el E0 newton prox xk xi xp dx rk ri (l : L) w merit c lg tr :
    exists lg' out, poutput O o pb e el E0 newton prox rk = (lg', [], Ok out) /\
    PrepareOutput (D:=D) (L:=L) O e el E0 (Refine.St e0 nz nl nv o (pb_combo pb) newton prox xk xi xp dx rk ri l w merit c lg tr) =
      (Refine.St e0 nz nl nv o (pb_combo pb) newton prox xk xi xp dx rk ri l w merit c (lg ++ lg') tr, Ok out).
  Proof.
    unfold poutput, PrepareOutput, PrintFinal, final_line, Refine.St. run. unfold wbind, wlog, wret.
    destruct (ge_final (p_display o)); run; eexists; eexists; (split; [reflexivity|]);
      rewrite ?app_nil_r; reflexivity.
  Qed.

  Ltac okk := unfold Refine.okst; auto 10.

  Lemma prox_ref_shared k el E0 fuel : forall itol newton prox xk xi xp dx rk ri l w merit c lg tr,
    writable nz nl nv k c -> okst xk xi xp dx rk ri l w ->
    match pprox_shared O o pb closing el E0 fuel itol xk dx ri rk w newton prox with
    | (lg', tr', Ok (out, xw)) =>
        exists s', prox_loop_shared O DI LS reload k el (p_sigma0 o) E0 fuel itol
          (St (pb_combo pb) newton prox xk xi xp dx rk ri l w merit c lg tr) = (s', Ok out) /\
        fin s' xw (lg ++ lg') (tr ++ tr') /\ vok xw
    | (lg', tr', Throw e) =>
        exists s', prox_loop_shared O DI LS reload k el (p_sigma0 o) E0 fuel itol
          (St (pb_combo pb) newton prox xk xi xp dx rk ri l w merit c lg tr) = (s', Throw e) /\
        fin s' c (lg ++ lg') (tr ++ tr')
    | (_, _, UB _) => False
    end.
  Proof.
    induction fuel as [|fuel IH];
      intros itol newton prox xk xi xp dx rk ri l w merit c lg tr Hwr Hok.
    - cbn [prox_loop_shared pprox_shared].
      destruct (output_any d MAXITERATIONS el E0 newton prox xk xi xp dx rk ri l w merit c lg tr)
        as (lg' & out & P1 & P2).
      rewrite P1. cbn [wbind wret]. run. refold. rewrite P2. run. refold.
      fold (FV xk). rewrite write_shared; [|assumption|apply Hok].
      eexists. split; [reflexivity|]. rewrite ?app_nil_r. split; [|apply Hok].
      apply fin_reloaded. exact Hok.
    - destruct Hok as (Hxk & Hxi & Hxp & Hdx & Hrk & Hri & Hl & Hw).
      cbn [prox_loop_shared pprox_shared]. run.
      destruct (pnr_ok O DI d nz nl nv (pinit:=pinit) (pst:=pst) HD o xk rk Hxk Hrk) as [E3 K3]. unfold Refine.FV, Refine.FR in E3.
      rewrite E3. run. clear E3. set (rk1 := pb_pnr pb xk) in *. refold.
      unfold fv_norm. run. refold.
      destruct (o_leb O (rsd_norm O rk1) (pb_combo pb) || o_leb O (var_norm O dx) (p_stall_tol o)) eqn:ET.
      + destruct (iter_run O d nz nl nv o itol (pb_combo pb) newton prox xk xi xp dx rk1 ri l w merit c lg tr) as [-> _].
        set (lg1 := lg ++ _).
        destruct (output_any d SUCCESS el E0 newton prox xk xi xp dx rk1 ri l w merit c lg1 tr)
          as (lg' & out & P1 & P2).
        rewrite P1, P2. cbn [wbind wret wlog].
        fold (FV xk). rewrite write_shared by assumption.
        eexists. split; [reflexivity|]. split; [|assumption].
        unfold lg1. rewrite ?app_nil_r, <- !app_assoc. cbn [app]. rewrite ?app_nil_r.
        apply fin_reloaded. okk.
      + destruct (iter_run O d nz nl nv o itol (pb_combo pb) newton prox xk xi xp dx rk1 ri l w merit c lg tr)
          as [_ [_ ->]].
        set (lg1 := lg ++ _).
        destruct (iter_run O d nz nl nv o itol (pb_combo pb) newton prox xk xi xp dx rk1 ri l w merit c lg1 tr)
          as [-> _].
        set (lg2 := lg1 ++ _). run.
        destruct (saturate O (o_mul O itol (p_delta o)) (p_inner_tol_min o) (rsd_norm O rk1))
          as [it1|e|u] eqn:ES.
        2: { refold. cbn [wbind wret wlog wlift]. eexists. split; [reflexivity|].
             unfold lg2, lg1. rewrite ?app_nil_r, <- !app_assoc.
             apply fin_isSt. unfold isSt. do 11 eexists. split; [reflexivity|okk]. }
        2: { unfold saturate in ES. destruct (o_ltb _ _ _); discriminate ES. }
        refold. set (tr1 := tr ++ _).
        assert (OK1 : okst xk xk xp dx rk1 ri l w) by okk.
        pose proof (sub_ref O DI LS d nz nl nv HD HL o it1 (rsd_norm O rk1) newton prox xk xk xp dx rk1 ri l w merit c lg2 tr1
                      OK1 eq_refl) as SR.
        cbn [wbind wret wlog wlift wghost].
        destruct (psub O o pb it1 (rsd_norm O rk1) xk dx ri rk1 newton)
          as [[lg3 tr3] [[[[[[Eo x1] dx1] ri1] rk2] n1]|e|u]].
        2: { destruct SR as (s' & -> & IS). exists s'. split; [reflexivity|].
             unfold lg2, lg1, tr1 in IS. rewrite ?app_nil_r. rewrite <- !app_assoc in IS.
             rewrite <- !app_assoc. apply fin_isSt. exact IS. }
        2: { exact SR. }
        destruct SR as (xp1 & l1 & m1 & -> & OK2).
        cbn [wbind wret wlog wlift wghost].
        destruct OK2 as (_ & Hx1 & Hxp1 & Hdx1 & Hrk2 & Hri1 & Hl1 & _).
        run. destruct (p_max_newton o <=? n1)%Z eqn:EN.
        * destruct (o_ltb O Eo (rsd_norm O rk1)) eqn:EB.
          -- refold. fold (FV x1). rewrite write_shared by assumption. run.
             destruct (pnr_ok O DI (reload x1) nz nl nv (pinit:=pinit) (pst:=pst) (HR x1 Hx1) o x1 rk2 Hx1 Hrk2) as [E4 K4].
             unfold Refine.FV, Refine.FR in E4. rewrite E4. run. refold.
             fold (closing x1).
             match goal with |- context [PrepareOutput O _ _ _ (Refine.St ?ee _ _ _ _ _ _ _ ?a ?b ?c' ?e ?r1 ?r2 ?f ?g ?h ?i ?j ?kk)] =>
               destruct (output_any ee MAXITERATIONS el E0 n1 prox a b c' e r1 r2 f g h i j kk)
                 as (lg' & out & P1 & P2) end.
             rewrite P1, P2. cbn [wbind wret wlog wlift wghost].
             eexists. split; [reflexivity|]. split; [|assumption].
             unfold lg2, lg1, tr1. rewrite ?app_nil_r, <- !app_assoc. cbn [app].
             apply fin_reloaded. okk.
          -- refold. fold (FV xk). rewrite write_shared by assumption. run.
             destruct (pnr_ok O DI (reload xk) nz nl nv (pinit:=pinit) (pst:=pst) (HR xk Hxk) o xk rk2 Hxk Hrk2) as [E4 K4].
             unfold Refine.FV, Refine.FR in E4. rewrite E4. run. refold.
             fold (closing xk).
             match goal with |- context [PrepareOutput O _ _ _ (Refine.St ?ee _ _ _ _ _ _ _ ?a ?b ?c' ?e ?r1 ?r2 ?f ?g ?h ?i ?j ?kk)] =>
               destruct (output_any ee MAXITERATIONS el E0 n1 prox a b c' e r1 r2 f g h i j kk)
                 as (lg' & out & P1 & P2) end.
             rewrite P1, P2. cbn [wbind wret wlog wlift wghost].
             eexists. split; [reflexivity|]. split; [|assumption].
             unfold lg2, lg1, tr1. rewrite ?app_nil_r, <- !app_assoc. cbn [app].
             apply fin_reloaded. okk.
        * destruct (axpy_ok O DI d nz nl nv (pinit:=pinit) (pst:=pst) HD o (o_mone O) xk x1 Hxk Hx1) as [E5 K5].
          unfold Refine.FV in E5. rewrite E5. run.
          set (dx2 := pb_axpy pb (o_mone O) xk x1) in *. refold.
          set (tr2 := (tr1 ++ tr3) ++ _). set (lg4 := lg2 ++ lg3).
          assert (FC : exists w1, ws_ok nz nl nv w1 /\
            (let '(w0, fs) := if p_check_feas o then pb_feas pb w dx2 else (w, FS_FEASIBLE) in
             w0 = w1 /\
             (if p_check_feas o then CheckForInfeasibility O DI else mret SUCCESS)
               (St (pb_combo pb) n1 prox xk x1 xp1 dx2 rk2 ri1 l1 w m1 c lg4 tr2) =
             (St (pb_combo pb) n1 prox xk x1 xp1 dx2 rk2 ri1 l1 w1 m1 c lg4 tr2, Ok (flag_of fs)))).
          { destruct (p_check_feas o).
            - destruct (feas_run O DI d nz nl nv (pinit:=pinit) (pst:=pst) HD Hnv o (pb_combo pb) n1 prox xk x1 xp1 dx2 rk2 ri1 l1 w m1 c lg4 tr2 K5 Hw)
                as [F1 F2].
              exists (fst (pb_feas pb w dx2)). split; [exact F2|].
              destruct (pb_feas pb w dx2) as [w0 fs]. cbn [fst snd] in *. split; [reflexivity|exact F1].
            - exists w. split; [exact Hw|]. split; reflexivity. }
          destruct FC as (w1 & Hw1 & FC).
          destruct (if p_check_feas o then pb_feas pb w dx2 else (w, FS_FEASIBLE)) as [w0 fs].
          destruct FC as [-> FC]. run. refold.
          match goal with |- context [if p_check_feas o then ?A else ?B] =>
            change (if p_check_feas o then A else B) with
                   (if p_check_feas o then CheckForInfeasibility (L:=L) O DI else mret SUCCESS) end.
          rewrite FC.
          destruct (flag_of fs) eqn:EF.
          { run. refold.
            assert (OK3 : okst x1 x1 xp1 dx2 rk2 ri1 l1 w1) by okk.
            specialize (IH it1 n1 (prox + 1)%Z x1 x1 xp1 dx2 rk2 ri1 l1 w1 m1 c lg4 tr2 Hwr OK3).
            destruct (pprox_shared O o pb closing el E0 fuel it1 x1 dx2 ri1 rk2 w1 n1 (prox + 1)%Z)
              as [[lg5 tr5] [[out xw]|e|u]].
            - destruct IH as (s' & IH & IS & V). exists s'. split; [exact IH|]. split; [|exact V].
              unfold lg4, lg2, lg1, tr2, tr1 in IS. rewrite ?app_nil_r, <- !app_assoc in IS.
              rewrite <- !app_assoc. exact IS.
            - destruct IH as (s' & IH & IS). exists s'. split; [exact IH|].
              unfold lg4, lg2, lg1, tr2, tr1 in IS. rewrite ?app_nil_r, <- !app_assoc in IS.
              rewrite <- !app_assoc. exact IS.
            - exact IH. }
          { destruct fs; discriminate EF. }
          { destruct fs; discriminate EF. }
          all: match goal with |- context [PrepareOutput O ?ef _ _ (Refine.St ?ee _ _ _ _ _ _ _ ?a ?b ?c' ?e ?r1 ?r2 ?f ?g ?h ?i ?j ?kk)] =>
               destruct (output_any ee ef el E0 n1 prox a b c' e r1 r2 f g h i j kk)
                 as (lg' & out & P1 & P2) end;
             rewrite P1, P2; cbn [wbind wret wlog wlift wghost]; run; refold;
             fold (FV dx2); rewrite write_shared by assumption;
             eexists; (split; [reflexivity|]); (split; [|assumption]);
             unfold lg4, lg2, lg1, tr2, tr1; rewrite ?app_nil_r, <- !app_assoc; cbn [app];
             rewrite ?app_nil_r; apply fin_reloaded; okk.
  Qed.

  Lemma solve_ref_shared k el s :
    ast_ok nz nl nv lsize s -> a_opts s = o -> guess_ok nz nl nv (a_caller s) -> writable nz nl nv k (a_caller s) ->
    match psolve_shared O o pb closing nz nl nv el (stale_of O s) (ws_of s) (a_caller s) with
    | (lg', tr', Ok (out, xw)) =>
        exists s', Solve_shared O DI LS reload d k el s = (s', Ok out) /\
        fin s' xw (a_log s ++ lg') (a_trace s ++ tr') /\ vok xw
    | (lg', tr', Throw e) =>
        exists s', Solve_shared O DI LS reload d k el s = (s', Throw e) /\
        fin s' (a_caller s) (a_log s ++ lg') (a_trace s ++ tr')
    | (_, _, UB _) => False
    end.
  Proof.
    destruct s as [o' cb n p xk xi xp dx rk ri l ff merit c lg tr].
    unfold ast_ok; cbn [a_opts a_caller a_xk a_xi a_xp a_dx a_rk a_ri a_ff a_ls a_log a_trace].
    intros (Hxk & Hxi & Hxp & Hdx & Hrk & Hri & Hff & Hl) -> (G1 & G2 & G3) Hwr.
    destruct xk as [m1 m2 m3 xk pxk], xi as [m4 m5 m6 xi pxi], xp as [m7 m8 m9 xp pxp],
      dx as [m10 m11 m12 dx pdx], rk as [m13 m14 m15 rk ark prk], ri as [m16 m17 m18 ri ari pri],
      ff as [m19 m20 m21 tz tl tv pff].
    unfold fv_ok, fr_ok, ff_ok in *; cbn [fv_nz fv_nl fv_nv fv_x fr_nz fr_nl fr_nv fr_r ff_nz ff_nl ff_nv ff_tz ff_tl ff_tv] in *.
    destruct Hxk as (-> & -> & -> & Hxk), Hxi as (-> & -> & -> & Hxi), Hxp as (-> & -> & -> & Hxp),
      Hdx as (-> & -> & -> & Hdx), Hrk as (-> & -> & -> & Hrk), Hri as (-> & -> & -> & Hri),
      Hff as (-> & -> & -> & Hw).
    unfold Solve_shared, link_all, set_alphas, fv_link, fr_link, ff_link, fr_setalpha, CopyIntoVariable, fv_set.
    run. cbn [fr_nz fr_nl fr_nv fr_alpha fr_data ff_nz ff_nl ff_nv ff_tz ff_tl ff_tv].
    pose proof (lo_ready _ _ _ _ _ _ _ _ _ HL (p_alpha o) l Hl) as Hr.
    set (l1 := ls_link LS (PLive d) (ls_setalpha LS (p_alpha o) l)) in *.
    destruct (margin_ok O DI d nz nl nv (pinit:=pinit) (pst:=pst) HD o (v_z c) (v_l c) (v_v c) (v_y xk) G1 (proj2 (proj2 (proj2 Hxk)))) as [E1 K1].
    unfold Refine.FV in E1. rewrite E1. run.
    destruct (fill_ok O DI d nz nl nv (pinit:=pinit) (pst:=pst) HD o (o_one O) dx Hdx) as [E2 K2]. unfold Refine.FV in E2. rewrite E2. run.
    unfold psolve_shared. fold (pstart pb c). set (x0 := pstart pb c) in *.
    assert (Hx0 : vok x0) by (unfold x0, pstart, var_ok; cbn; auto).
    destruct (pnr_ok O DI d nz nl nv (pinit:=pinit) (pst:=pst) HD o x0 rk Hx0 Hrk) as [E3 K3]. unfold Refine.FV, Refine.FR in E3. rewrite E3. run.
    change (combo_of O DI o d) with (pb_combo pb).
    fold (pones O pb nz nl nv).
    assert (Hone : vok (pones O pb nz nl nv)).
    { unfold pones, var_ok; cbn [v_z v_l v_v v_y]. autorewrite with vlen. auto. }
    unfold stale_of, ws_of; cbn [a_ri a_ff ff_tz ff_tl ff_tv].
    assert (Hst : rrok (fr_r (fr_fill (o_zero O) (mkFres nz nl nv ri ari pri : fres T D)))).
    { apply fill_rr. exact Hri. }
    unfold fr_fill in Hst |- *. unfold fr_set in Hst |- *.
    cbn [fr_r fr_nz fr_nl fr_nv fr_alpha fr_data] in Hst |- *.
    match type of Hst with rsd_ok _ _ _ ?x => set (ri0 := x) in * end.
    change (mkFfeas nz nl nv tz tl tv (PLive d)) with (FF (tz, tl, tv)).
    destruct (saturate O (rsd_norm O (pb_pnr pb x0)) (p_inner_tol_min o) (p_inner_tol_max o))
      as [it|e|u] eqn:ES.
    2: { cbn [wbind wlift]. eexists. split; [reflexivity|]. rewrite ?app_nil_r. refold.
         apply fin_isSt. unfold isSt. do 11 eexists. split; [reflexivity|okk]. }
    2: { unfold saturate in ES. destruct (o_ltb _ _ _); discriminate ES. }
    refold.
    match goal with |- context [PrintIterHeader (Refine.St _ _ _ _ _ ?a ?b ?c' ?d' ?e ?f ?g ?h ?i ?j ?k' ?l' ?m ?n' ?q)] =>
      destruct (iter_run O d nz nl nv o it a b c' d' e f g h i j k' l' m n' q) as [_ [PI _]] end.
    rewrite PI. cbn [wbind wlift wlog].
    match goal with |- context [prox_loop_shared O DI LS reload k el (p_sigma0 o) ?E0 ?fu it (Refine.St _ _ _ _ _ _ _ _ ?d' ?e ?f ?g ?h ?i ?j ?k' ?l' ?m ?n' ?q)] =>
      pose proof (prox_ref_shared k el E0 fu it 0%Z 0%Z d' e f g h i j k' l' m n' q Hwr) as PR end.
    assert (OK0 : okst x0 x0 xp (pones O pb nz nl nv) (pb_pnr pb x0) ri0 l1 (tz, tl, tv)) by okk.
    specialize (PR OK0).
    destruct (pprox_shared O o pb closing el _ _ it x0 _ ri0 _ _ _ _) as [[lg' tr'] [[out xw]|e|u]].
    - destruct PR as (s' & PR & IS & V). exists s'. split; [exact PR|]. split; [|exact V].
      rewrite <- !app_assoc in IS. cbn [app] in *. exact IS.
    - destruct PR as (s' & PR & IS). exists s'. split; [exact PR|].
      rewrite <- !app_assoc in IS. cbn [app] in *. exact IS.
    - exact PR.
  Qed.

  Theorem call_ref_shared k el s x :
    ast_ok nz nl nv lsize s -> a_opts s = o -> guess_ok nz nl nv x -> writable nz nl nv k x ->
    exists s', call_shared O DI LS reload s d k x el =
      (s', presult (psolve_shared O o pb closing nz nl nv el (stale_of O s) (ws_of s) x) x) /\
      ast_ok nz nl nv lsize s' /\ a_opts s' = o /\
      is_ub (snd (psolve_shared O o pb closing nz nl nv el (stale_of O s) (ws_of s) x)) = false /\
      (forall out xw, snd (psolve_shared O o pb closing nz nl nv el (stale_of O s) (ws_of s) x) = Ok (out, xw) -> vok xw).
  Proof.
    intros Hok Ho Hg Hw. unfold call_shared.
    set (s0 := set_trace [] (set_log [] (set_caller x s))).
    assert (Hok0 : ast_ok nz nl nv lsize s0) by exact Hok.
    pose proof (solve_ref_shared k el s0 Hok0 Ho Hg Hw) as SR.
    change (stale_of O s0) with (stale_of O s) in SR. change (ws_of s0) with (ws_of s) in SR.
    change (a_caller s0) with x in SR. change (a_log s0) with (@nil (event T)) in SR.
    change (a_trace s0) with (@nil (ghost T)) in SR. cbn [app] in SR.
    destruct (psolve_shared O o pb closing nz nl nv el (stale_of O s) (ws_of s) x) as [[lg tr] [[out xw]|e|u]];
      cbn [snd is_ub].
    - destruct SR as (s1 & -> & (A1 & A2 & A3 & A4 & A5) & V).
      eexists. rewrite A3, A4, A5. split; [reflexivity|]. split; [exact A1|]. split; [exact A2|].
      split; [reflexivity|]. intros out' xw' [= <- <-]. exact V.
    - destruct SR as (s1 & -> & (A1 & A2 & A3 & A4 & A5)).
      eexists. rewrite A3, A4, A5. split; [reflexivity|]. split; [exact A1|]. split; [exact A2|].
      split; [reflexivity|]. discriminate.
    - destruct SR.
  Qed.
End RefineShared.
