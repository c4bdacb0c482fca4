(* Solve with a caller's output stream (Stream.v) refines the same pure run as Solve on shared
   memory (RefineShared.v): complete if the stream takes every message, cut short at the first
   message it refuses. *)
From Verif Require Export RefineShared StreamSpec Stream.

Lemma pprox_shared_same {T} (O : Ops T) o (pb : prob T) el E0 fuel :
  forall itol xk dx ri rk w newton prox,
  pprox_shared O o pb (pb_pnr pb) el E0 fuel itol xk dx ri rk w newton prox =
  pprox O o pb el E0 fuel itol xk dx ri rk w newton prox.
Proof. reflexivity. Qed.
Lemma psolve_shared_same {T} (O : Ops T) o (pb : prob T) nz nl nv el st w c :
  psolve_shared O o pb (pb_pnr pb) nz nl nv el st w c = psolve O o pb nz nl nv el st w c.
Proof. reflexivity. Qed.

Section RefineStream.
  Context {T D L : Type} (O : Ops T) (DI : DataI T D) (LS : LSI T D L).
  Context (d : D) (nz nl nv : nat).
  Context {lsize : L -> Prop} {lready : T -> L -> Prop}
          {pinit : T -> T -> var T -> var T -> res bool}
          {pst : T -> T -> var T -> var T -> rsd T -> var T}.
  Hypothesis (HD : DataOk DI d nz nl nv) (HL : LSOk LS d nz nl nv lsize lready pinit pst) (Hnv : 0 < nv).
  Context (o : params T).
  Context (reload : var T -> D).
  Hypothesis HR : forall x, var_ok nz nl nv x -> DataOk DI (reload x) nz nl nv.
  Hypothesis HLL : forall p q l, ls_link LS p (ls_link LS q l) = ls_link LS p l.
  Context (accepts : list (event T) -> bool).

  Notation pb := (prob_of O DI d nz nl nv pinit pst o).
  Notation vok := (var_ok nz nl nv).
  Notation rrok := (rsd_ok nz nl nv).
  Notation FV := (FV d nz nl nv).
  Notation FR := (FR d nz nl nv).
  Notation FF := (FF d nz nl nv).
  Notation St := (St d nz nl nv o).
  Notation okst := (okst nz nl nv (lready:=lready) o).
  Notation closing := (closing O DI nz nl nv (pinit:=pinit) (pst:=pst) o reload).
  Notation fin := (fin LS nz nl nv (lsize:=lsize) o).
  Notation refused := (refused accepts).
  Notation upto := (upto accepts).
  Notation isSt := (isSt O DI d nz nl nv (lready:=lready) (pinit:=pinit) (pst:=pst) o).

  Ltac run := cbv beta iota zeta delta [mbind mget_ mmod mlift mret ghost_event log_event rk_pnr ri_inner
      set_opts set_combo set_newton set_prox set_xk set_xi set_xp set_dx set_rk set_ri set_ls set_ff
      set_merit set_caller set_log set_trace
      a_opts a_combo a_newton a_prox a_xk a_xi a_xp a_dx a_rk a_ri a_ls a_ff a_merit a_caller a_log
      a_trace fr_r Refine.FR fv_x fv_copy Refine.FV Refine.St fv_nz fv_nl fv_nv fv_data fst snd].

  Ltac refold := repeat match goal with
    |- context [mkAst o ?cb ?n ?p (mkFvar nz nl nv ?xk (PLive ?e)) (mkFvar nz nl nv ?xi (PLive ?e))
                      (mkFvar nz nl nv ?xp (PLive ?e)) (mkFvar nz nl nv ?dx (PLive ?e))
                      (mkFres nz nl nv ?rk (p_alpha o) (PLive ?e))
                      (mkFres nz nl nv ?ri (p_alpha o) (PLive ?e)) ?l (Refine.FF ?e nz nl nv ?w) ?m ?c ?lg ?tr] =>
      change (mkAst o cb n p (mkFvar nz nl nv xk (PLive e)) (mkFvar nz nl nv xi (PLive e))
                      (mkFvar nz nl nv xp (PLive e)) (mkFvar nz nl nv dx (PLive e))
                      (mkFres nz nl nv rk (p_alpha o) (PLive e))
                      (mkFres nz nl nv ri (p_alpha o) (PLive e)) l (Refine.FF e nz nl nv w) m c lg tr)
      with (Refine.St e nz nl nv o cb n p xk xi xp dx rk ri l w m c lg tr) end.


  Ltac okk := unfold Refine.okst; auto 10.
  Ltac one := unfold emit; run; cbn [StreamSpec.refused]; destruct (accepts _); reflexivity.
  Ltac none := run; cbn [StreamSpec.refused]; rewrite ?app_nil_r; reflexivity.

  (* one message: printed if accepted, else the exception *)
  Lemma det_on i t tol cb newton prox xk xi xp dx rk ri (l : L) w merit c lg tr :
    PrintDetailedLine_on accepts i t (St cb newton prox xk xi xp dx rk ri l w merit c lg tr) =
      match refused lg (det_line o i t ri) with
      | None => (St cb newton prox xk xi xp dx rk ri l w merit c (lg ++ det_line o i t ri) tr, Ok tt)
      | Some _ => (St cb newton prox xk xi xp dx rk ri l w merit c lg tr, Throw EStream)
      end /\
    PrintDetailedFooter_on O accepts tol (St cb newton prox xk xi xp dx rk ri l w merit c lg tr) =
      match refused lg (det_footer O o ri tol) with
      | None => (St cb newton prox xk xi xp dx rk ri l w merit c (lg ++ det_footer O o ri tol) tr, Ok tt)
      | Some _ => (St cb newton prox xk xi xp dx rk ri l w merit c lg tr, Throw EStream)
      end.
  Proof.
    unfold PrintDetailedLine_on, PrintDetailedFooter_on, det_line, det_footer, Refine.St. run.
    split; destruct (is_det (p_display o)); first [one | none].
  Qed.

  Lemma iter_on itol cb newton prox xk xi xp dx rk ri (l : L) w merit c lg tr :
    PrintIterLine_on O accepts itol (St cb newton prox xk xi xp dx rk ri l w merit c lg tr) =
      match refused lg (iter_line O o prox newton rk ri itol) with
      | None => (St cb newton prox xk xi xp dx rk ri l w merit c (lg ++ iter_line O o prox newton rk ri itol) tr, Ok tt)
      | Some _ => (St cb newton prox xk xi xp dx rk ri l w merit c lg tr, Throw EStream)
      end /\
    PrintIterHeader_on accepts (St cb newton prox xk xi xp dx rk ri l w merit c lg tr) =
      match refused lg (iter_header o) with
      | None => (St cb newton prox xk xi xp dx rk ri l w merit c (lg ++ iter_header o) tr, Ok tt)
      | Some _ => (St cb newton prox xk xi xp dx rk ri l w merit c lg tr, Throw EStream)
      end /\
    PrintDetailedHeader_on O accepts (St cb newton prox xk xi xp dx rk ri l w merit c lg tr) =
      match refused lg (det_header O o prox newton rk) with
      | None => (St cb newton prox xk xi xp dx rk ri l w merit c (lg ++ det_header O o prox newton rk) tr, Ok tt)
      | Some _ => (St cb newton prox xk xi xp dx rk ri l w merit c lg tr, Throw EStream)
      end.
  Proof.
    unfold PrintIterLine_on, PrintIterHeader_on, PrintDetailedHeader_on, iter_line, iter_header, det_header, Refine.St.
    run. repeat split; [destruct (is_iter (p_display o))|destruct (is_iter (p_display o))
                  |destruct (is_det (p_display o))]; first [one | none].
  Qed.

  (* the closing summary, over any data *)
  Lemma output_on (e0 : D) e el E0 newton prox xk xi xp dx rk ri (l : L) w merit c lg tr :
    exists lg' out, poutput O o pb e el E0 newton prox rk = (lg', [], Ok out) /\
    PrepareOutput_on O accepts e el E0 (Refine.St e0 nz nl nv o (pb_combo pb) newton prox xk xi xp dx rk ri l w merit c lg tr) =
      match refused lg lg' with
      | None => (Refine.St e0 nz nl nv o (pb_combo pb) newton prox xk xi xp dx rk ri l w merit c (lg ++ lg') tr, Ok out)
      | Some _ => (Refine.St e0 nz nl nv o (pb_combo pb) newton prox xk xi xp dx rk ri l w merit c lg tr, Throw EStream)
      end /\
    upto lg lg' = match refused lg lg' with None => lg' | Some _ => [] end /\
    match refused lg lg' with
    | None => True
    | Some m => newton_summary m =
        match e with MAXITERATIONS => (p_max_newton o <=? newton)%Z | _ => false end
    end.
  Proof.
    unfold poutput, PrepareOutput_on, PrintFinal_on, final_line, Refine.St. run. unfold wbind, wlog, wret.
    destruct (ge_final (p_display o)); run; unfold emit; run; eexists; eexists; (split; [reflexivity|]);
      cbn [app StreamSpec.refused StreamSpec.upto].
    - match goal with |- context [accepts ?x] => destruct (accepts x) end; (split; [reflexivity|]);
        (split; [reflexivity|]); [exact I|]. destruct e; reflexivity.
    - rewrite ?app_nil_r. auto.
  Qed.

  Lemma single lg l m : length l <= 1 -> refused lg l = Some m -> upto lg l = [].
  Proof.
    destruct l as [|e [|]]; cbn; intros H; try lia; [discriminate|]. destruct (accepts _); [discriminate|reflexivity].
  Qed.
  Lemma det_line_1 i t (ri : rsd T) : length (det_line o i t ri) <= 1.
  Proof. unfold det_line. destruct (is_det _); cbn; lia. Qed.
  Lemma det_footer_1 (ri : rsd T) tol : length (det_footer O o ri tol) <= 1.
  Proof. unfold det_footer. destruct (is_det _); cbn; lia. Qed.
  Lemma det_header_1 p n (rk : rsd T) : length (det_header O o p n rk) <= 1.
  Proof. unfold det_header. destruct (is_det _); cbn; lia. Qed.
  Lemma iter_line_1 p n (rk ri : rsd T) t : length (iter_line O o p n rk ri t) <= 1.
  Proof. unfold iter_line. destruct (is_iter _); cbn; lia. Qed.
  Lemma iter_header_1 : length (iter_header (T:=T) o) <= 1.
  Proof. unfold iter_header. destruct (is_iter _); cbn; lia. Qed.


  Lemma det_line_not lg i t (ri : rsd T) m : refused lg (det_line o i t ri) = Some m -> newton_summary m = false.
  Proof. unfold det_line. destruct (is_det _); cbn; [|discriminate]. destruct (accepts _); [discriminate|]. intros [= <-]. reflexivity. Qed.
  Lemma det_footer_not lg (ri : rsd T) tol m : refused lg (det_footer O o ri tol) = Some m -> newton_summary m = false.
  Proof. unfold det_footer. destruct (is_det _); cbn; [|discriminate]. destruct (accepts _); [discriminate|]. intros [= <-]. reflexivity. Qed.
  Lemma det_header_not lg p n (rk : rsd T) m : refused lg (det_header O o p n rk) = Some m -> newton_summary m = false.
  Proof. unfold det_header. destruct (is_det _); cbn; [|discriminate]. destruct (accepts _); [discriminate|]. intros [= <-]. reflexivity. Qed.
  Lemma iter_line_not lg p n (rk ri : rsd T) t m : refused lg (iter_line O o p n rk ri t) = Some m -> newton_summary m = false.
  Proof. unfold iter_line. destruct (is_iter _); cbn; [|discriminate]. destruct (accepts _); [discriminate|]. intros [= <-]. reflexivity. Qed.
  Lemma iter_header_not lg m : refused lg (iter_header o) = Some m -> newton_summary m = false.
  Proof. unfold iter_header. destruct (is_iter _); cbn; [|discriminate]. destruct (accepts _); [discriminate|]. intros [= <-]. reflexivity. Qed.

  (* cut short: the exception of the stream, before any message of the closing summary *)
  Definition cut {A} (run : ast T D L * res A) (c : var T) (lg lg' : list (event T)) (m : event T) : Prop :=
    newton_summary m = false /\
    exists s' tr', run = (s', Throw EStream) /\ isSt s' c (lg ++ upto lg lg') tr'.

  Lemma cut_here {A} newton prox xk xi xp dx rk ri l w merit c lg tr a b m :
    okst xk xi xp dx rk ri l w -> refused lg a = Some m -> length a <= 1 -> newton_summary m = false ->
    cut (A:=A) (St (pb_combo pb) newton prox xk xi xp dx rk ri l w merit c lg tr, Throw EStream) c lg (a ++ b) m.
  Proof.
    intros Hok R H1 H2. split; [exact H2|]. do 2 eexists. split; [reflexivity|].
    rewrite upto_app, R, (single _ _ _ H1 R), app_nil_r. unfold Refine.isSt. do 11 eexists. split; [reflexivity|exact Hok].
  Qed.
  Lemma cut_here0 {A} newton prox xk xi xp dx rk ri l w merit c lg tr a m :
    okst xk xi xp dx rk ri l w -> refused lg a = Some m -> length a <= 1 -> newton_summary m = false ->
    cut (A:=A) (St (pb_combo pb) newton prox xk xi xp dx rk ri l w merit c lg tr, Throw EStream) c lg a m.
  Proof. intros. rewrite <- (app_nil_r a). now apply cut_here. Qed.
  Lemma cut_later {A} (r : ast T D L * res A) c lg a b m : refused lg a = None ->
    cut r c (lg ++ a) b m -> cut r c lg (a ++ b) m.
  Proof.
    intros R (H & s & tr & E & I). split; [exact H|]. exists s, tr. split; [exact E|].
    rewrite upto_app, R, app_assoc. exact I.
  Qed.

  Lemma inner_ref_on fuel : forall i t Eo tol Ek newton prox xk xi xp dx rk ri l w merit c lg tr,
    okst xk xi xp dx rk ri l w ->
    let run := inner_loop_on O DI LS accepts fuel i t Eo tol (p_sigma0 o) Ek
          (St (pb_combo pb) newton prox xk xi xp dx rk ri l w merit c lg tr) in
    match pinner O o pb fuel i t Eo tol Ek xi xk dx ri rk newton merit with
    | (lg', tr', r) =>
      match refused lg lg' with
      | Some m => cut run c lg lg' m
      | None =>
        match r with
        | Ok (Eo', x', dx', ri', rk', newton') =>
          exists xp' l' merit',
          run = (St (pb_combo pb) newton' prox xk x' xp' dx' rk' ri' l' w merit' c (lg ++ lg') (tr ++ tr'), Ok Eo')
          /\ okst xk x' xp' dx' rk' ri' l' w
        | Throw e => exists s', run = (s', Throw e) /\ isSt s' c (lg ++ lg') (tr ++ tr')
        | UB _ => False
        end
      end
    end.
  Proof.
    induction fuel as [|fuel IH];
      intros i t Eo tol Ek newton prox xk xi xp dx rk ri l w merit c lg tr Hok; cbv zeta.
    - cbn. exists xp, l, merit. rewrite ?app_nil_r. split; [reflexivity|assumption].
    - destruct Hok as (Hxk & Hxi & Hxp & Hdx & Hrk & Hri & Hl & Hw).
      cbn [inner_loop_on pinner]. run.
      destruct (inner_ok O DI d nz nl nv (pinit:=pinit) (pst:=pst) HD o xi xk ri Hxi Hxk Hri) as [E2 K2].
      unfold Refine.FV, Refine.FR in E2. rewrite E2. run. clear E2.
      destruct (pnr_ok O DI d nz nl nv (pinit:=pinit) (pst:=pst) HD o xi rk Hxi Hrk) as [E3 K3].
      unfold Refine.FV, Refine.FR in E3. rewrite E3. run. clear E3.
      set (ri1 := pb_inner pb xi xk) in *. set (rk1 := pb_pnr pb xi) in *.
      set (g := GInner xi (rsd_norm O ri1) (rsd_norm O rk1)).
      refold.
      assert (OK1 : okst xk xi xp dx rk1 ri1 l w) by okk.
      destruct (det_on i t tol (pb_combo pb) newton prox xk xi xp dx rk1 ri1 l w merit c lg (tr ++ [g])) as [P1 _].
      destruct ((_ && _) || _) eqn:ET.
      + cbn [wbind wghost wlog wret app]. rewrite ?app_nil_r. rewrite P1. clear P1.
        rewrite refused_app.
        destruct (refused lg (det_line o i t ri1)) as [m|] eqn:R1.
        { apply cut_here; [exact OK1|exact R1|apply det_line_1|apply (det_line_not _ _ _ _ _ R1)]. }
        destruct (det_on i t tol (pb_combo pb) newton prox xk xi xp dx rk1 ri1 l w merit c
                    (lg ++ det_line o i t ri1) (tr ++ [g])) as [_ P2].
        rewrite P2. clear P2.
        destruct (refused (lg ++ det_line o i t ri1) (det_footer O o ri1 tol)) as [m|] eqn:R2.
        { apply cut_later; [exact R1|]. apply cut_here0; [exact OK1|exact R2|apply det_footer_1|apply (det_footer_not _ _ _ _ R2)]. }
        exists xp, l, merit. rewrite ?app_nil_r, !app_assoc, ?app_nil_r.
        split; [reflexivity|assumption].
      + rewrite P1. clear P1. 
        destruct (p_max_newton o <=? newton)%Z eqn:EN.
        * cbn [wbind wghost wlog wret app]. rewrite ?app_nil_r.
          destruct (refused lg (det_line o i t ri1)) as [m|] eqn:R1.
          { apply cut_here0; [exact OK1|exact R1|apply det_line_1|apply (det_line_not _ _ _ _ _ R1)]. }
          run. refold.
          exists xp, l, merit. rewrite ?app_nil_r. split; [reflexivity|assumption].
        * pose proof (step_ref O DI LS d nz nl nv HD HL o newton prox xk xi xp dx rk1 ri1 l w merit c
                        (lg ++ det_line o i t ri1) (tr ++ [g]) Hxk Hxi Hxp Hdx K2 Hl) as SR.
          match goal with |- context [wbind (pstep O o pb xi xk ri1 merit) ?f] =>
            set (WW := wbind (pstep O o pb xi xk ri1 merit) f) end.
          cbn [wbind wghost wlog wret app].
          destruct (refused lg (det_line o i t ri1)) as [m|] eqn:R1.
          { destruct WW as [[lg2 tr2] r2]. cbn [app]. rewrite refused_app, R1.
            apply cut_here; [exact OK1|exact R1|apply det_line_1|apply (det_line_not _ _ _ _ _ R1)]. }
          run. refold. unfold WW. clear WW.
          destruct (pstep O o pb xi xk ri1 merit) as [[lg1 tr1] [[[[[t1 x1] dx1] ri2] m1]|e|u]].
          -- destruct SR as (-> & xp1 & l1 & SR & Hx1 & Hxp1 & Hdx1 & Hri2 & Hl1).
             rewrite SR.
             specialize (IH (i + 1)%Z t1 (rsd_norm O rk1) tol Ek (newton + 1)%Z prox xk x1 xp1 dx1 rk1
                            ri2 l1 w m1 c (lg ++ det_line o i t ri1) ((tr ++ [g]) ++ tr1)).
             assert (OK2 : okst xk x1 xp1 dx1 rk1 ri2 l1 w) by okk.
             specialize (IH OK2). cbv zeta in IH. cbn [wbind].
             destruct (pinner O o pb fuel _ _ _ _ _ _ _ _ _ _ _ _) as [[lg2 tr2] r].
             cbn [app]. rewrite refused_app, R1.
             destruct (refused (lg ++ det_line o i t ri1) lg2) as [m|] eqn:R2.
             { apply cut_later; [exact R1|exact IH]. }
             destruct r as [[[[[[Eo2 x2] dx2] ri3] rk2] n2]|e|u].
             ++ destruct IH as (xp2 & l2 & m2 & IH & OK3). exists xp2, l2, m2.
                split; [|assumption]. rewrite IH. cbn [app]. rewrite <- !app_assoc. reflexivity.
             ++ destruct IH as (s' & IH & IS). exists s'. split; [exact IH|].
                cbn [app]. rewrite <- !app_assoc in IS. exact IS.
             ++ exact IH.
          -- destruct SR as (-> & -> & l1 & SR & Hl1). rewrite SR.
             cbn [wbind app]. rewrite ?app_nil_r, R1.
             eexists. split; [reflexivity|]. unfold Refine.isSt. do 11 eexists. split; [reflexivity|okk].
          -- exact (False_ind _ SR).
  Qed.

  Lemma sub_ref_on tol Ek newton prox xk xi xp dx rk ri l w merit c lg tr :
    okst xk xi xp dx rk ri l w -> xi = xk ->
    let run := SolveProximalSubproblem_on O DI LS accepts tol (p_sigma0 o) Ek
          (St (pb_combo pb) newton prox xk xi xp dx rk ri l w merit c lg tr) in
    match psub O o pb tol Ek xk dx ri rk newton with
    | (lg', tr', r) =>
      match refused lg lg' with
      | Some m => cut run c lg lg' m
      | None =>
        match r with
        | Ok (Eo', x', dx', ri', rk', newton') =>
          exists xp' l' merit',
          run = (St (pb_combo pb) newton' prox xk x' xp' dx' rk' ri' l' w merit' c (lg ++ lg') (tr ++ tr'), Ok Eo')
          /\ okst xk x' xp' dx' rk' ri' l' w
        | Throw e => exists s', run = (s', Throw e) /\ isSt s' c (lg ++ lg') (tr ++ tr')
        | UB _ => False
        end
      end
    end.
  Proof.
    intros Hok ->. unfold SolveProximalSubproblem_on, psub. run. refold.
    pose proof (inner_ref_on (Z.to_nat (p_max_inner o)) 0%Z (o_one O) (o_zero O) tol Ek newton prox
                  xk xk xp dx rk ri l w (repeat (o_zero O) 5) c lg tr Hok) as IR. cbv zeta in IR.
    destruct (pinner O o pb _ _ _ _ _ _ _ _ _ _ _ _ _) as [[lg2 tr2] r].
    destruct (refused lg lg2) as [m|] eqn:R.
    { destruct IR as (IR0 & s' & tr' & IR & IS).
      assert (X : forall tl tr0 r0,
        (let '(lg', tr', r') := (lg2 ++ tl, tr0, r0) : W T (T * var T * var T * rsd T * rsd T * Z) in
         match refused lg lg' with
         | Some m => cut (A:=T) (s', Throw EStream) c lg lg' m
         | None => match r' with Ok (Eo', x', dx', ri', rk', newton') => 
             exists xp' l' merit',
               (s', Throw EStream) = (St (pb_combo pb) newton' prox xk x' xp' dx' rk' ri' l' w merit' c (lg ++ lg') (tr ++ tr'), Ok Eo')
               /\ okst xk x' xp' dx' rk' ri' l' w
           | Throw e => exists s'', (s', @Throw T EStream) = (s'', Throw e) /\ isSt s'' c (lg ++ lg') (tr ++ tr')
           | UB _ => False end end)).
      { intros. rewrite refused_app, R. split; [exact IR0|]. exists s', tr'. split; [reflexivity|].
        rewrite upto_app, R. exact IS. }
      rewrite IR. destruct r as [[[[[[Eo2 x2] dx2] ri3] rk2] n2]|e|u]; cbn [wbind wghost wret].
      - exact (X [] (tr2 ++ [GProject (proj_duals O x2)] ++ []) (Ok (Eo2, proj_duals O x2, dx2, ri3, rk2, n2))).
      - specialize (X [] tr2 (Throw e)). rewrite app_nil_r in X. exact X.
      - specialize (X [] tr2 (UB u)). rewrite app_nil_r in X. exact X. }
    destruct r as [[[[[[Eo2 x2] dx2] ri3] rk2] n2]|e|u].
    - destruct IR as (xp' & l' & m' & -> & OK'). cbn [wbind wghost wret]. rewrite !app_nil_r, R.
      exists xp', l', m'. run. unfold fv_project, fv_set. cbn [fv_nz fv_nl fv_nv fv_x fv_data].
      rewrite ?app_nil_r, <- !app_assoc. split; [reflexivity|].
      destruct OK' as (O1 & O2 & O3). split; [exact O1|]. split; [apply proj_ok; exact O2|exact O3].
    - destruct IR as (s' & -> & IS). cbn [wbind]. rewrite R. exists s'. split; [reflexivity|exact IS].
    - exact (False_ind _ IR).
  Qed.

  Definition left_with (m : event T) (r : res (solver_out T * var T)) (c : var T) : var T :=
    if newton_summary m then match r with Ok (_, xw) => xw | _ => c end else c.

  (* a run against the stream, described by the complete run (lg', tr', r) *)
  Definition streamed (run : ast T D L * res (solver_out T)) (c : var T) (lg : list (event T))
      (tr : list (ghost T)) (w : W T (solver_out T * var T)) : Prop :=
    let '(lg', tr', r) := w in
    match refused lg lg' with
    | Some m =>
        exists s' tr'', run = (s', Throw EStream) /\ fin s' (left_with m r c) (lg ++ upto lg lg') tr''
    | None =>
        match r with
        | Ok (out, xw) => exists s', run = (s', Ok out) /\ fin s' xw (lg ++ lg') (tr ++ tr') /\ vok xw
        | Throw e => exists s', run = (s', Throw e) /\ fin s' c (lg ++ lg') (tr ++ tr')
        | UB _ => False
        end
    end.

  Notation fin_isSt := (fin_isSt O DI LS d nz nl nv HL o).
  Notation fin_reloaded := (fin_reloaded LS d nz nl nv HL o HLL).

  Lemma streamed_cut run c lg tr a b tr0 r m : refused lg a = Some m ->
    cut run c lg a m -> streamed run c lg tr (a ++ b, tr0, r).
  Proof.
    intros R (H & s' & tr' & E & I). unfold streamed. rewrite refused_app, R. exists s', tr'.
    split; [exact E|]. unfold left_with. rewrite H, upto_app, R. apply fin_isSt. exact I.
  Qed.

  (* once the messages a have been accepted *)
  Lemma streamed_later run c lg tr a t w : refused lg a = None ->
    streamed run c (lg ++ a) (tr ++ t) w ->
    streamed run c lg tr (let '(l, t', r) := w in (a ++ l, t ++ t', r)).
  Proof.
    destruct w as [[l t'] r]. unfold streamed. intro R. rewrite refused_app, R.
    destruct (refused (lg ++ a) l) eqn:R2.
    - intros (s' & tr' & E & F). exists s', tr'. split; [exact E|]. rewrite upto_app, R, app_assoc. exact F.
    - rewrite !app_assoc. auto.
  Qed.

  Lemma write_shared_ k cb newton prox xk xi xp dx rk ri (l : L) w merit c lg tr x :
    writable nz nl nv k c -> vok x ->
    WriteShared LS reload k (FV x) (St cb newton prox xk xi xp dx rk ri l w merit c lg tr) =
      (Refine.St (reload x) nz nl nv o cb newton prox xk xi xp dx rk ri
          (ls_link LS (PLive (reload x)) l) w merit x lg tr, Ok tt).
  Proof. apply write_shared. Qed.

  Lemma wbind_out {A} (a : list (event T)) (x : A) (f : A -> W T (solver_out T * var T)) :
    wbind (a, [], Ok x) f = let '(l, t', r) := f x in (a ++ l, t', r).
  Proof. reflexivity. Qed.

  (* the closing summary followed by the write-back of x *)
  Lemma exit_on k e el E0 newton prox xk xi xp dx rk ri l w merit c lg tr x :
    writable nz nl nv k c -> okst xk xi xp dx rk ri l w -> vok x ->
    e <> MAXITERATIONS \/ (newton < p_max_newton o)%Z ->
    forall rd : ast T D L -> fvar T D,
    (forall lg, rd (St (pb_combo pb) newton prox xk xi xp dx rk ri l w merit c lg tr) = FV x) ->
    streamed (mbind (PrepareOutput_on O accepts e el E0) (fun out => mbind (mget_ (fun s => s)) (fun s =>
                mbind (WriteShared LS reload k (rd s)) (fun _ => mret out)))
               (St (pb_combo pb) newton prox xk xi xp dx rk ri l w merit c lg tr)) c lg tr
      (wbind (poutput O o pb e el E0 newton prox rk) (fun out => wret (out, x))).
  Proof.
    intros Hwr Hok Hx He rd Hrd.
    destruct (output_on d e el E0 newton prox xk xi xp dx rk ri l w merit c lg tr)
      as (lg' & out & P1 & P2 & P3 & P4).
    rewrite P1. rewrite wbind_out. unfold wret, streamed. rewrite app_nil_r. unfold mbind, mget_. rewrite P2.
    destruct (refused lg lg') as [m|] eqn:R.
    - do 2 eexists. split; [reflexivity|]. rewrite P3, app_nil_r. unfold left_with.
      replace (newton_summary m) with false.
      + apply fin_isSt. unfold Refine.isSt. do 11 eexists. split; [reflexivity|exact Hok].
      + rewrite P4. destruct e; try reflexivity. destruct He as [He|He]; [congruence|].
        symmetry. apply Z.leb_gt. exact He.
    - rewrite Hrd, write_shared_ by assumption. eexists. split; [reflexivity|]. rewrite ?app_nil_r.
      split; [|exact Hx]. apply fin_reloaded. exact Hok.
  Qed.

  Lemma newton_exit k el E0 newton prox xk xi xp dx rk ri l w merit c lg tr x :
    writable nz nl nv k c -> okst xk xi xp dx rk ri l w -> vok x -> (p_max_newton o <= newton)%Z ->
    forall rd : ast T D L -> fvar T D,
    rd (Refine.St (reload x) nz nl nv o (pb_combo pb) newton prox xk xi xp dx rk ri
          (ls_link LS (PLive (reload x)) l) w merit x lg tr) = Refine.FV (reload x) nz nl nv x ->
    streamed (mbind (mbind (WriteShared LS reload k (FV x)) (fun _ =>
                mbind (mget_ (fun s => s)) (fun s => rk_pnr O DI (rd s))))
                (fun _ => PrepareOutput_on O accepts MAXITERATIONS el E0)
               (St (pb_combo pb) newton prox xk xi xp dx rk ri l w merit c lg tr)) c lg tr
      (wbind (poutput O o pb MAXITERATIONS el E0 newton prox (closing x)) (fun out => wret (out, x))).
  Proof.
    intros Hwr Hok Hx Hn rd Hrd.
    unfold mbind at 1 2. rewrite write_shared_ by assumption. unfold mbind, mget_.
    rewrite Hrd. destruct Hok as (Hxk & Hxi & Hxp & Hdx & Hrk & Hri & Hl & Hw).
    destruct (pnr_ok O DI (reload x) nz nl nv (pinit:=pinit) (pst:=pst) (HR x Hx) o x rk Hx Hrk) as [E4 K4].
    unfold rk_pnr. run. unfold Refine.FV, Refine.FR in E4. rewrite E4. run. refold. fold (closing x).
    match goal with |- context [PrepareOutput_on O _ _ _ _ (Refine.St ?ee _ _ _ _ _ _ _ ?a ?b ?c' ?e ?r1 ?r2 ?f ?g ?h ?i ?j ?kk)] =>
      destruct (output_on ee MAXITERATIONS el E0 newton prox a b c' e r1 r2 f g h i j kk)
        as (lg' & out & P1 & P2 & P3 & P4) end.
    unfold closing in *. rewrite P1. rewrite wbind_out. unfold wret, streamed. rewrite app_nil_r, P2.
    destruct (refused lg lg') as [m|] eqn:R.
    - do 2 eexists. split; [reflexivity|]. rewrite P3, app_nil_r. unfold left_with. rewrite P4.
      apply Z.leb_le in Hn. rewrite Hn. apply fin_reloaded. okk.
    - eexists. split; [reflexivity|]. rewrite app_nil_r. split; [|exact Hx]. apply fin_reloaded. okk.
  Qed.

  Lemma streamed_bind {A} run c lg tr a t (x : A) f : refused lg a = None ->
    streamed run c (lg ++ a) (tr ++ t) (f x) -> streamed run c lg tr (wbind (a, t, Ok x) f).
  Proof. intros R H. exact (streamed_later run c lg tr a t (f x) R H). Qed.
  Lemma streamed_log run c lg tr a f : refused lg a = None ->
    streamed run c (lg ++ a) tr (f tt) -> streamed run c lg tr (wbind (wlog a) f).
  Proof. intros R H. apply streamed_bind; [exact R|]. rewrite app_nil_r. exact H. Qed.
  Lemma streamed_ghost run c lg tr g f :
    streamed run c lg (tr ++ [g]) (f tt) -> streamed run c lg tr (wbind (wghost g) f).
  Proof. intros H. apply streamed_bind; [reflexivity|]. rewrite app_nil_r. exact H. Qed.
  Lemma streamed_ret {A} run c lg tr (x : A) f :
    streamed run c lg tr (f x) -> streamed run c lg tr (wbind (wlift (Ok x)) f).
  Proof. intros H. apply streamed_bind; [reflexivity|]. rewrite !app_nil_r. exact H. Qed.
  Lemma streamed_stop {A} run c lg tr a t (r : res A) f m : refused lg a = Some m ->
    cut run c lg a m -> streamed run c lg tr (wbind (a, t, r) f).
  Proof.
    intros R H. unfold wbind. destruct r as [x|e|u].
    - destruct (f x) as [[l t'] r']. apply (streamed_cut run c lg tr a l _ _ m R H).
    - pose proof (streamed_cut run c lg tr a [] t (Throw e) m R H) as X. rewrite app_nil_r in X. exact X.
    - pose proof (streamed_cut run c lg tr a [] t (UB u) m R H) as X. rewrite app_nil_r in X. exact X.
  Qed.

  Lemma prox_ref_on k el E0 fuel : forall itol newton prox xk xi xp dx rk ri l w merit c lg tr,
    writable nz nl nv k c -> okst xk xi xp dx rk ri l w -> (newton < p_max_newton o)%Z ->
    streamed (prox_loop_on O DI LS reload accepts k el (p_sigma0 o) E0 fuel itol
          (St (pb_combo pb) newton prox xk xi xp dx rk ri l w merit c lg tr)) c lg tr
      (pprox_shared O o pb closing el E0 fuel itol xk dx ri rk w newton prox).
  Proof.
    induction fuel as [|fuel IH];
      intros itol newton prox xk xi xp dx rk ri l w merit c lg tr Hwr Hok HN.
    - cbn [prox_loop_on pprox_shared].
      apply (exit_on k MAXITERATIONS el E0 newton prox xk xi xp dx rk ri l w merit c lg tr xk Hwr Hok (proj1 Hok)
               (or_intror HN) (fun s => a_xk s)). intros; reflexivity.
    - destruct Hok as (Hxk & Hxi & Hxp & Hdx & Hrk & Hri & Hl & Hw).
      cbn [prox_loop_on pprox_shared]. run.
      destruct (pnr_ok O DI d nz nl nv (pinit:=pinit) (pst:=pst) HD o xk rk Hxk Hrk) as [E3 K3].
      unfold Refine.FV, Refine.FR in E3. rewrite E3. run. clear E3. set (rk1 := pb_pnr pb xk) in *. refold.
      assert (OK1 : okst xk xi xp dx rk1 ri l w) by okk.
      unfold fv_norm. run. refold.
      destruct (o_leb O (rsd_norm O rk1) (pb_combo pb) || o_leb O (var_norm O dx) (p_stall_tol o)) eqn:ET.
      + destruct (iter_on itol (pb_combo pb) newton prox xk xi xp dx rk1 ri l w merit c lg tr) as [-> _].
        destruct (refused lg (iter_line O o prox newton rk1 ri itol)) as [m|] eqn:R1.
        { eapply streamed_stop; [exact R1|].
          apply cut_here0; [exact OK1|exact R1|apply iter_line_1|apply (iter_line_not _ _ _ _ _ _ _ R1)]. }
        apply streamed_log; [exact R1|].
        assert (NE : SUCCESS <> MAXITERATIONS) by discriminate.
        set (lg1 := lg ++ _).
        pose proof (exit_on k SUCCESS el E0 newton prox xk xi xp dx rk1 ri l w merit c lg1 tr xk Hwr OK1 Hxk
                 (or_introl NE) (fun _ => FV xk) (fun _ => eq_refl)) as X.
        unfold mbind, mget_, mret in X. exact X.
      + destruct (iter_on itol (pb_combo pb) newton prox xk xi xp dx rk1 ri l w merit c lg tr)
          as [_ [_ ->]].
        destruct (refused lg (det_header O o prox newton rk1)) as [m|] eqn:R1.
        { eapply streamed_stop; [rewrite refused_app, R1; reflexivity|].
          apply cut_here; [exact OK1|exact R1|apply det_header_1|apply (det_header_not _ _ _ _ _ R1)]. }
        destruct (iter_on itol (pb_combo pb) newton prox xk xi xp dx rk1 ri l w merit c
                    (lg ++ det_header O o prox newton rk1) tr) as [-> _].
        destruct (refused (lg ++ det_header O o prox newton rk1) (iter_line O o prox newton rk1 ri itol)) as [m|] eqn:R2.
        { eapply streamed_stop; [rewrite refused_app, R1; exact R2|].
          apply cut_later; [exact R1|].
          apply cut_here0; [exact OK1|exact R2|apply iter_line_1|apply (iter_line_not _ _ _ _ _ _ _ R2)]. }
        apply streamed_log; [rewrite refused_app, R1; exact R2|].
        rewrite app_assoc. set (lg2 := (lg ++ _) ++ _). run.
        destruct (saturate O (o_mul O itol (p_delta o)) (p_inner_tol_min o) (rsd_norm O rk1))
          as [it1|e|u] eqn:ES.
        2: { refold. cbn [wbind wlift]. unfold streamed. cbn [StreamSpec.refused]. eexists. split; [reflexivity|].
             rewrite !app_nil_r.
             apply fin_isSt. unfold Refine.isSt. do 11 eexists. split; [reflexivity|okk]. }
        2: { unfold saturate in ES. destruct (o_ltb _ _ _); discriminate ES. }
        refold. apply streamed_ret. apply streamed_ghost. set (tr1 := tr ++ _).
        assert (OK2 : okst xk xk xp dx rk1 ri l w) by okk.
        pose proof (sub_ref_on it1 (rsd_norm O rk1) newton prox xk xk xp dx rk1 ri l w merit c lg2 tr1
                      OK2 eq_refl) as SR. cbv zeta in SR.
        destruct (psub O o pb it1 (rsd_norm O rk1) xk dx ri rk1 newton) as [[lg3 tr3] r].
        destruct (refused lg2 lg3) as [m|] eqn:R3.
        { destruct SR as (H0 & s' & tr' & -> & IS). eapply streamed_stop; [exact R3|].
          split; [exact H0|]. exists s', tr'. split; [reflexivity|exact IS]. }
        destruct r as [[[[[[Eo x1] dx1] ri1] rk2] n1]|e|u].
        2: { destruct SR as (s' & -> & IS). cbn [wbind]. unfold streamed. rewrite R3. exists s'.
             split; [reflexivity|]. apply fin_isSt. exact IS. }
        2: { destruct SR. }
        destruct SR as (xp1 & l1 & m1 & -> & OK3).
        apply streamed_bind; [exact R3|].
        set (lg4 := lg2 ++ lg3). set (tr2 := tr1 ++ tr3).
        pose proof OK3 as (_ & Hx1 & Hxp1 & Hdx1 & Hrk2 & Hri1 & Hl1 & _).
        run. destruct (p_max_newton o <=? n1)%Z eqn:EN.
        * apply Z.leb_le in EN.
          destruct (o_ltb O Eo (rsd_norm O rk1)) eqn:EB.
          -- refold.
             pose proof (newton_exit k el E0 n1 prox xk x1 xp1 dx1 rk2 ri1 l1 w m1 c lg4 tr2 x1 Hwr OK3 Hx1 EN (fun s => a_xi s) eq_refl) as X.
             unfold mbind, mget_, mret in X. exact X.
          -- refold.
             pose proof (newton_exit k el E0 n1 prox xk x1 xp1 dx1 rk2 ri1 l1 w m1 c lg4 tr2 xk Hwr OK3 Hxk EN (fun s => a_xk s) eq_refl) as X.
             unfold mbind, mget_, mret in X. exact X.
        * apply Z.leb_gt in EN.
          destruct (axpy_ok O DI d nz nl nv (pinit:=pinit) (pst:=pst) HD o (o_mone O) xk x1 Hxk Hx1) as [E5 K5].
          unfold Refine.FV in E5. rewrite E5. run.
          set (dx2 := pb_axpy pb (o_mone O) xk x1) in *. refold.
          apply streamed_ghost. set (tr3' := tr2 ++ _).
          assert (FC : exists w1, ws_ok nz nl nv w1 /\
            (let '(w0, fs) := if p_check_feas o then pb_feas pb w dx2 else (w, FS_FEASIBLE) in
             w0 = w1 /\
             (if p_check_feas o then CheckForInfeasibility O DI else mret SUCCESS)
               (St (pb_combo pb) n1 prox xk x1 xp1 dx2 rk2 ri1 l1 w m1 c lg4 tr3') =
             (St (pb_combo pb) n1 prox xk x1 xp1 dx2 rk2 ri1 l1 w1 m1 c lg4 tr3', Ok (flag_of fs)))).
          { destruct (p_check_feas o).
            - destruct (feas_run O DI d nz nl nv (pinit:=pinit) (pst:=pst) HD Hnv o (pb_combo pb) n1 prox xk x1 xp1 dx2 rk2 ri1 l1 w m1 c lg4 tr3' K5 Hw)
                as [F1 F2].
              exists (fst (pb_feas pb w dx2)). split; [exact F2|].
              destruct (pb_feas pb w dx2) as [w0 fs]. cbn [fst snd] in *. split; [reflexivity|exact F1].
            - exists w. split; [exact Hw|]. split; reflexivity. }
          destruct FC as (w1 & Hw1 & FC).
          destruct (if p_check_feas o then pb_feas pb w dx2 else (w, FS_FEASIBLE)) as [w0 fs].
          destruct FC as [-> FC]. run. refold.
          match goal with |- context [if p_check_feas o then ?A else ?B] =>
            change (if p_check_feas o then A else B) with
                   (if p_check_feas o then CheckForInfeasibility (L:=L) O DI else mret SUCCESS) end.
          rewrite FC.
          assert (OK4 : okst xk x1 xp1 dx2 rk2 ri1 l1 w1) by okk.
          destruct (flag_of fs) eqn:EF.
          { run. refold. apply (IH it1 n1 (prox + 1)%Z x1 x1 xp1 dx2 rk2 ri1 l1 w1 m1 c lg4 tr3' Hwr); [okk|exact EN]. }
          { destruct fs; discriminate EF. }
          { destruct fs; discriminate EF. }
          all: match goal with |- context [poutput O o pb ?ef _ _ _ _ _] =>
            assert (NE : ef <> MAXITERATIONS) by discriminate;
            pose proof (exit_on k ef el E0 n1 prox xk x1 xp1 dx2 rk2 ri1 l1 w1 m1 c lg4 tr3' dx2 Hwr OK4 K5
                 (or_introl NE) (fun s => a_dx s) (fun _ => eq_refl)) as X end;
            unfold mbind, mget_, mret in X; exact X.
  Qed.

  Lemma solve_ref_on k el s :
    ast_ok nz nl nv lsize s -> a_opts s = o -> guess_ok nz nl nv (a_caller s) -> writable nz nl nv k (a_caller s) ->
    (0 < p_max_newton o)%Z ->
    streamed (Solve_on O DI LS reload accepts d k el s) (a_caller s) (a_log s) (a_trace s)
      (psolve_shared O o pb closing nz nl nv el (stale_of O s) (ws_of s) (a_caller s)).
  Proof.
    destruct s as [o' cb n p xk xi xp dx rk ri l ff merit c lg tr].
    unfold ast_ok; cbn [a_opts a_caller a_xk a_xi a_xp a_dx a_rk a_ri a_ff a_ls a_log a_trace].
    intros (Hxk & Hxi & Hxp & Hdx & Hrk & Hri & Hff & Hl) -> (G1 & G2 & G3) Hwr HN.
    destruct xk as [m1 m2 m3 xk pxk], xi as [m4 m5 m6 xi pxi], xp as [m7 m8 m9 xp pxp],
      dx as [m10 m11 m12 dx pdx], rk as [m13 m14 m15 rk ark prk], ri as [m16 m17 m18 ri ari pri],
      ff as [m19 m20 m21 tz tl tv pff].
    unfold fv_ok, fr_ok, ff_ok in *; cbn [fv_nz fv_nl fv_nv fv_x fr_nz fr_nl fr_nv fr_r ff_nz ff_nl ff_nv ff_tz ff_tl ff_tv] in *.
    destruct Hxk as (-> & -> & -> & Hxk), Hxi as (-> & -> & -> & Hxi), Hxp as (-> & -> & -> & Hxp),
      Hdx as (-> & -> & -> & Hdx), Hrk as (-> & -> & -> & Hrk), Hri as (-> & -> & -> & Hri),
      Hff as (-> & -> & -> & Hw).
    unfold Solve_on, link_all, set_alphas, fv_link, fr_link, ff_link, fr_setalpha, CopyIntoVariable, fv_set.
    run. cbn [fr_nz fr_nl fr_nv fr_alpha fr_data ff_nz ff_nl ff_nv ff_tz ff_tl ff_tv].
    pose proof (lo_ready _ _ _ _ _ _ _ _ _ HL (p_alpha o) l Hl) as Hr.
    set (l1 := ls_link LS (PLive d) (ls_setalpha LS (p_alpha o) l)) in *.
    destruct (margin_ok O DI d nz nl nv (pinit:=pinit) (pst:=pst) HD o (v_z c) (v_l c) (v_v c) (v_y xk) G1 (proj2 (proj2 (proj2 Hxk)))) as [E1 K1].
    unfold Refine.FV in E1. rewrite E1. run.
    destruct (fill_ok O DI d nz nl nv (pinit:=pinit) (pst:=pst) HD o (o_one O) dx Hdx) as [E2 K2]. unfold Refine.FV in E2. rewrite E2. run.
    unfold psolve_shared. fold (pstart pb c). set (x0 := pstart pb c) in *.
    assert (Hx0 : vok x0) by (unfold x0, pstart, var_ok; cbn; auto).
    destruct (pnr_ok O DI d nz nl nv (pinit:=pinit) (pst:=pst) HD o x0 rk Hx0 Hrk) as [E3 K3]. unfold Refine.FV, Refine.FR in E3. rewrite E3. run.
    change (combo_of O DI o d) with (pb_combo pb).
    fold (pones O pb nz nl nv).
    assert (Hone : vok (pones O pb nz nl nv)).
    { unfold pones, var_ok; cbn [v_z v_l v_v v_y]. autorewrite with vlen. auto. }
    unfold stale_of, ws_of; cbn [a_ri a_ff ff_tz ff_tl ff_tv].
    assert (Hst : rrok (fr_r (fr_fill (o_zero O) (mkFres nz nl nv ri ari pri : fres T D)))).
    { apply fill_rr. exact Hri. }
    unfold fr_fill in Hst |- *. unfold fr_set in Hst |- *.
    cbn [fr_r fr_nz fr_nl fr_nv fr_alpha fr_data] in Hst |- *.
    match type of Hst with rsd_ok _ _ _ ?x => set (ri0 := x) in * end.
    change (mkFfeas nz nl nv tz tl tv (PLive d)) with (FF (tz, tl, tv)).
    destruct (saturate O (rsd_norm O (pb_pnr pb x0)) (p_inner_tol_min o) (p_inner_tol_max o))
      as [it|e|u] eqn:ES.
    2: { cbn [wbind wlift]. unfold streamed. cbn [StreamSpec.refused]. eexists. split; [reflexivity|]. rewrite ?app_nil_r. refold.
         apply fin_isSt. unfold Refine.isSt. do 11 eexists. split; [reflexivity|okk]. }
    2: { unfold saturate in ES. destruct (o_ltb _ _ _); discriminate ES. }
    refold. apply streamed_ret.
    assert (OK0 : okst x0 x0 xp (pones O pb nz nl nv) (pb_pnr pb x0) ri0 l1 (tz, tl, tv)) by okk.
    match goal with |- context [PrintIterHeader_on _ (Refine.St _ _ _ _ _ ?a ?b ?c' ?d' ?e ?f ?g ?h ?i ?j ?k' ?l' ?m ?n' ?q)] =>
      destruct (iter_on it a b c' d' e f g h i j k' l' m n' q) as [_ [PI _]] end.
    rewrite PI. clear PI.
    destruct (refused lg (iter_header o)) as [m|] eqn:R1.
    { eapply streamed_stop; [exact R1|].
      apply cut_here0; [exact OK0|exact R1|apply iter_header_1|apply (iter_header_not _ _ R1)]. }
    apply streamed_log; [exact R1|].
    apply prox_ref_on; assumption.
  Qed.

  Theorem call_ref_on k el s x :
    ast_ok nz nl nv lsize s -> a_opts s = o -> guess_ok nz nl nv x -> writable nz nl nv k x ->
    (0 < p_max_newton o)%Z ->
    let w := psolve_shared O o pb closing nz nl nv el (stale_of O s) (ws_of s) x in
    let '(s', r) := call_on O DI LS reload accepts s d k x el in
    ast_ok nz nl nv lsize s' /\ a_opts s' = o /\
    match refused [] (fst (fst w)) with
    | None => r = presult w x
    | Some m => sr_out r = Throw EStream /\ sr_x r = left_with m (snd w) x /\
                sr_log r = upto [] (fst (fst w))
    end.
  Proof.
    intros Hok Ho Hg Hw HN. cbv zeta. unfold call_on.
    set (s0 := set_trace [] (set_log [] (set_caller x s))).
    assert (Hok0 : ast_ok nz nl nv lsize s0) by exact Hok.
    pose proof (solve_ref_on k el s0 Hok0 Ho Hg Hw HN) as SR.
    change (stale_of O s0) with (stale_of O s) in SR. change (ws_of s0) with (ws_of s) in SR.
    change (a_caller s0) with x in SR. change (a_log s0) with (@nil (event T)) in SR.
    change (a_trace s0) with (@nil (ghost T)) in SR.
    destruct (psolve_shared O o pb closing nz nl nv el (stale_of O s) (ws_of s) x) as [[lg tr] r].
    unfold streamed in SR. cbn [app fst snd] in *.
    destruct (refused [] lg) as [m|] eqn:R.
    - destruct SR as (s1 & tr1 & -> & (A1 & A2 & A3 & A4 & A5)). cbn [sr_out sr_x sr_log].
      split; [exact A1|]. split; [exact A2|]. auto.
    - destruct r as [[out xw]|e|u].
      + destruct SR as (s1 & -> & (A1 & A2 & A3 & A4 & A5) & V).
        split; [exact A1|]. split; [exact A2|]. rewrite A3, A4, A5. reflexivity.
      + destruct SR as (s1 & -> & (A1 & A2 & A3 & A4 & A5)).
        split; [exact A1|]. split; [exact A2|]. rewrite A3, A4, A5. reflexivity.
      + destruct SR.
  Qed.
End RefineStream.
