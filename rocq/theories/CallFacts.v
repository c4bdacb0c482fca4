(* What every accepted Solve call is known to satisfy. *)
From Verif Require Export Trace.

Section Facts.
  Context {T : Type} (O : Ops T) (LA : LinAlg T).
  Hypothesis Hz00 : o_eqb O (o_zero O) (o_zero O) = true.

  Lemma dense_limits nz nl nv s : dense_reach O LA nz nl nv s -> limits_ok (ds_options s).
  Proof.
    intro H. apply (dense_reach_inv2 O LA nz nl nv s H).
  Qed.
  Lemma mpc_limits N nx nu nc s : mpc_reach O LA N nx nu nc s -> limits_ok (mps_options s).
  Proof.
    intro H. apply (mpc_reach_inv2 O LA Hz00 N nx nu nc s H).
  Qed.

  (* pinit, pst: the linear solver as pure functions; stale, w: left over from earlier calls *)
  Record call_desc {D} (DI : DataI T D) (d : D) (nz nl nv : nat) (o : params T) (x : var T) (el : T)
         (r : solve_result T) pinit pst stale (w : ws T) : Prop := {
    cd_run : r = presult (psolve O o (prob_of O DI d nz nl nv pinit pst o) nz nl nv el stale w x) x;
    cd_noub : is_ub (snd (psolve O o (prob_of O DI d nz nl nv pinit pst o) nz nl nv el stale w x)) = false;
    cd_data : DataOk DI d nz nl nv;
    cd_guess : guess_ok nz nl nv x;
    cd_nv : 0 < nv;
    cd_init : forall al sg y yb, pinit al sg y yb =
       if o_leb O sg (o_zero O) then Throw ESigma else Ok (unres true (pinit al sg y yb));
    cd_step : forall al sg y yb rr, var_ok nz nl nv y -> var_ok nz nl nv yb -> rsd_ok nz nl nv rr ->
       pinit al sg y yb = Ok true -> var_ok nz nl nv (pst al sg y yb rr);
    cd_ws : ws_ok nz nl nv w;
    cd_lim : limits_ok o }.

  Lemma ls_step {D L} (DI : DataI T D) (LS : LSI T D L) d nz nl nv lsize lready pinit pst (l : L) :
    LSOk LS d nz nl nv lsize lready pinit pst -> lsize l -> 
    forall al sg y yb rr, var_ok nz nl nv y -> var_ok nz nl nv yb -> rsd_ok nz nl nv rr ->
       pinit al sg y yb = Ok true -> var_ok nz nl nv (pst al sg y yb rr).
  Proof.
    intros HL Hl al sg y yb rr Hy Hyb Hr Hi.
    pose proof (lo_ready _ _ _ _ _ _ _ _ _ HL al l Hl) as Hre.
    destruct (lo_init _ _ _ _ _ _ _ _ _ HL al sg _ y yb Hre Hy Hyb) as (l' & _ & _ & K).
    destruct (K Hi rr y Hr Hy) as [_ K2]. exact K2.
  Qed.

  Lemma dense_desc nz nl nv s qp d k x el :
    dense_reach O LA nz nl nv s ->
    DenseData_ctor O (Some (q_H qp)) (Some (q_f qp)) (Some (q_G qp)) (Some (q_h qp))
                     (Some (q_A qp)) (Some (q_b qp)) = Ok d ->
    dense_validate s d x = Ok tt -> y_fits k x (Z.to_nat nv) ->
    let n := Z.to_nat nz in let p := Z.to_nat nl in let q := Z.to_nat nv in
    dense_ok d n p q /\
    call_desc (denseDI O) d n p q (ds_options s) x el (snd (FBstabDense_Solve O LA s qp k x el))
      (d_pinit O LA d n p q) (d_pst O LA d n p q) (stale_of O (ds_alg s)) (ws_of (ds_alg s)).
  Proof.
    intros Hr Hc Hv Hy. cbv zeta.
    pose proof (dense_reach_inv _ _ _ _ _ _ Hr) as Hi.
    destruct (dense_call O LA _ _ _ _ _ _ _ _ el Hi Hc Hv Hy) as (A0 & A1 & A2 & A3 & _).
    destruct (dense_validate_ok _ _ _ _ _ _ Hi Hv) as (_ & _ & _ & G).
    destruct Hi as (_ & _ & _ & _ & _ & P & Hast). split; [exact A0|].
    constructor; auto.
    - apply dense_data_ok; exact A0.
    - lia.
    - intros al sg y yb. unfold d_pinit. destruct (o_leb O sg (o_zero O)); reflexivity.
    - refine (ls_step (denseDI O) (denseLS O LA) d _ _ _ _ _ _ _ (a_ls (ds_alg s)) (dense_ls_ok O LA d _ _ _ A0) _).
      apply Hast.
    - destruct Hast as (_ & _ & _ & _ & _ & _ & (_ & _ & _ & Hff) & _). exact Hff.
    - eapply dense_limits; eauto.
  Qed.

  Lemma mpc_desc N nx nu nc s qp d k x el :
    mpc_reach O LA N nx nu nc s -> seqs_valid qp -> single_columns qp ->
    MpcData_ctor O qp = Ok d -> mpc_validate_inputs s d x = Ok tt ->
    let n := Z.to_nat N in let a := Z.to_nat nx in let u := Z.to_nat nu in let c := Z.to_nat nc in
    mpc_ok d n a u c /\ (1 <= n /\ 1 <= a /\ 1 <= u /\ 1 <= c) /\
    Z.to_nat (mps_nz s) = RiccatiOk.nz n a u /\ Z.to_nat (mps_nl s) = RiccatiOk.nl n a /\
    Z.to_nat (mps_nv s) = RiccatiOk.nv n c /\
    call_desc (mpcDI O) d (RiccatiOk.nz n a u) (RiccatiOk.nl n a) (RiccatiOk.nv n c) (mps_options s) x el
      (snd (FBstabMpc_Solve O LA s qp k x el))
      (m_pinit O LA d n a u c) (m_pst O LA d n a u c) (stale_of O (mps_alg s)) (ws_of (mps_alg s)).
  Proof.
    intros Hr Hs Hc1 Hc Hv. cbv zeta.
    pose proof (mpc_reach_inv _ _ Hz00 _ _ _ _ _ Hr) as Hi.
    destruct (mpc_call O LA Hz00 _ _ _ _ _ _ _ k _ el Hi Hs Hc1 Hc Hv) as (A0 & A1 & A2 & A3 & _).
    destruct (mpc_validate_ok _ _ _ _ _ _ _ Hi Hv) as (_ & _ & _ & _ & G). cbv zeta in G.
    destruct Hi as (_ & _ & _ & _ & E5 & E6 & E7 & P1 & P2 & P3 & P4 & Hast). cbv zeta in Hast.
    split; [exact A0|]. split; [lia|].
    split; [rewrite E5; unfold RiccatiOk.nz; rewrite Z2Nat.inj_mul, !Z2Nat.inj_add by lia; reflexivity|].
    split; [rewrite E6; unfold RiccatiOk.nl; rewrite Z2Nat.inj_mul, !Z2Nat.inj_add by lia; reflexivity|].
    split; [rewrite E7; unfold RiccatiOk.nv; rewrite Z2Nat.inj_mul, !Z2Nat.inj_add by lia; reflexivity|].
    constructor; auto.
    - apply mpc_data_ok; exact A0.
    - unfold guess_ok; split; [|split]; apply G.
    - unfold RiccatiOk.nv; nia.
    - intros al sg y yb. unfold m_pinit. destruct (o_leb O sg (o_zero O)); reflexivity.
    - refine (ls_step (mpcDI O) (mpcLS O LA) d _ _ _ _ _ _ _ (a_ls (mps_alg s)) (mpc_ls_ok O LA Hz00 d _ _ _ _ A0) _).
      apply Hast.
    - destruct Hast as (_ & _ & _ & _ & _ & _ & (_ & _ & _ & Hff) & _). exact Hff.
    - eapply mpc_limits; eauto.
  Qed.

  Lemma call_desc_ex D DI d nz nl nv o x el r :
    solve_call O LA D DI d nz nl nv o x el r ->
    exists pinit pst stale w, call_desc DI d nz nl nv o x el r pinit pst stale w.
  Proof.
    intros [nz' nl' nv' s qp d' k x' el' Hr Hc Hv Hy|N nx nu nc s qp d' k x' el' Hr Hs Hc1 Hc Hv].
    - destruct (dense_desc _ _ _ _ _ _ k _ el' Hr Hc Hv Hy) as [_ H]. do 4 eexists; exact H.
    - destruct (mpc_desc _ _ _ _ _ _ _ k _ el' Hr Hs Hc1 Hc Hv) as (_ & _ & E1 & E2 & E3 & H).
      rewrite E1, E2, E3. do 4 eexists; exact H.
  Qed.

  (* ---- closure of well-sized points under the pure operations ---- *)
  Section Closure.
    Context {D : Type} (DI : DataI T D) (d : D) (nz nl nv : nat) (o : params T) (x : var T) (el : T)
            (r : solve_result T) (pinit : T -> T -> var T -> var T -> res bool)
            (pst : T -> T -> var T -> var T -> rsd T -> var T) (stale : rsd T) (w : ws T).
    Hypothesis CD : call_desc DI d nz nl nv o x el r pinit pst stale w.
    Notation pb := (prob_of O DI d nz nl nv pinit pst o).
    Notation vok := (var_ok nz nl nv).

    Lemma cl_axpy a y z : vok y -> vok z -> vok (pb_axpy pb a y z).
    Proof.
      intros (A1 & A2 & A3 & A4) (B1 & B2 & B3 & B4). cbn. unfold paxpy, var_ok; cbn.
      autorewrite with vlen.
      destruct (ab_ok DI d nz nl nv (cd_data _ _ _ _ _ _ _ _ _ _ _ _ _ CD) (o_opp O a)
                  (vaxpy O a (v_y y) (v_y z))) as [_ K]; [autorewrite with vlen; exact B4|]. auto.
    Qed.
    Lemma cl_inner y yb : vok y -> vok yb -> rsd_ok nz nl nv (pb_inner pb y yb).
    Proof.
      intros H1 H2.
      destruct (inner_ok O DI d nz nl nv (pinit:=pinit) (pst:=pst) (cd_data _ _ _ _ _ _ _ _ _ _ _ _ _ CD) o y yb
        (mkRsd (vconst nz (o_zero O)) (vconst nl (o_zero O)) (vconst nv (o_zero O)) (o_zero O) (o_zero O) (o_zero O)))
        as [_ K]; auto.
      unfold rsd_ok; cbn. autorewrite with vlen. auto.
    Qed.
    Lemma cl_newton y yb dx : vok y -> vok yb ->
      pb_newton pb y yb (rsd_neg O (pb_inner pb y yb)) = Ok dx -> vok dx.
    Proof.
      intros H1 H2. unfold pb_newton, prob_of, pnewton.
      destruct (pinit _ _ y yb) as [[|]|e|u] eqn:E; try discriminate. intros [= <-].
      apply (cd_step _ _ _ _ _ _ _ _ _ _ _ _ _ CD); auto.
      apply neg_ok. apply cl_inner; auto.
    Qed.
    Lemma cl_proj y : vok y -> vok (proj_duals O y).
    Proof. apply proj_ok. Qed.
    Lemma cl_feas w' y : ws_ok nz nl nv w' -> vok y -> ws_ok nz nl nv (fst (pb_feas pb w' y)).
    Proof.
      intros Hw Hy.
      destruct (feas_ok O DI d nz nl nv (cd_data _ _ _ _ _ _ _ _ _ _ _ _ _ CD) 
                 (cd_nv _ _ _ _ _ _ _ _ _ _ _ _ _ CD) y (p_infeas_tol o) w' Hy Hw) as [_ K]. exact K.
    Qed.
    Lemma cl_margin z : length z = nz -> length (pb_margin pb z) = nv.
    Proof.
      intro Hz.
      destruct (margin_ok O DI d nz nl nv (pinit:=pinit) (pst:=pst) (cd_data _ _ _ _ _ _ _ _ _ _ _ _ _ CD) o
        z (vconst nl (o_zero O)) (vconst nv (o_zero O)) (vconst nv (o_zero O))) as [_ K]; auto.
      autorewrite with vlen. reflexivity.
    Qed.
    Lemma cl_start : vok (pstart pb x).
    Proof.
      destruct (cd_guess _ _ _ _ _ _ _ _ _ _ _ _ _ CD) as (A & B & C).
      unfold var_ok, pstart; cbn [v_z v_l v_v v_y]. auto using cl_margin.
    Qed.
    Lemma cl_ones : vok (pones O pb nz nl nv).
    Proof.
      unfold var_ok, pones; cbn [v_z v_l v_v v_y]. autorewrite with vlen.
      repeat split; auto. apply cl_margin. autorewrite with vlen. reflexivity.
    Qed.

    (* the whole call, as a legal trace with a legal exit *)
    Definition itol0_of : T := sat (O:=O) (rsd_norm O (pb_pnr pb (pstart pb x))) (p_inner_tol_min o) (p_inner_tol_max o).

(* the same for any property of points kept by the pure operations *)
    Lemma call_master_inv (vq : var T -> Prop)
        (Hax : forall a y z, vq y -> vq z -> vq (pb_axpy pb a y z))
        (Hnw : forall y yb dx, vq y -> vq yb -> pb_newton pb y yb (rsd_neg O (pb_inner pb y yb)) = Ok dx -> vq dx)
        (Hpr : forall y, vq y -> vq (proj_duals O y))
        (Hfe : forall w' y, ws_ok nz nl nv w' -> vq y -> ws_ok nz nl nv (fst (pb_feas pb w' y)))
        (Hst : vq (pstart pb x)) :
      let x0 := pstart pb x in
      let E0 := rsd_norm O (pb_pnr pb x0) in
      match sr_out r with
      | UB _ => False
      | Throw ESaturate =>
          sr_x r = x /\ 
          ((o_ltb O (p_inner_tol_max o) (p_inner_tol_min o) = true /\ sr_trace r = []) \/
          (o_ltb O (p_inner_tol_max o) (p_inner_tol_min o) = false /\
           trace_ok O o pb vq itol0_of (pones O pb nz nl nv) (start_ctx x0) (sr_trace r) /\
           exit_ok O o pb vq (ws_ok nz nl nv) (pones O pb nz nl nv) (p_max_prox o) (after x0 (sr_trace r)) (Throw ESaturate)))
      | Throw e =>
          sr_x r = x /\ 
          o_ltb O (p_inner_tol_max o) (p_inner_tol_min o) = false /\
          trace_ok O o pb vq itol0_of (pones O pb nz nl nv) (start_ctx x0) (sr_trace r) /\
          exit_ok O o pb vq (ws_ok nz nl nv) (pones O pb nz nl nv) (p_max_prox o) (after x0 (sr_trace r)) (Throw e)
      | Ok out =>
          o_ltb O (p_inner_tol_max o) (p_inner_tol_min o) = false /\
          trace_ok O o pb vq itol0_of (pones O pb nz nl nv) (start_ctx x0) (sr_trace r) /\
          exit_ok O o pb vq (ws_ok nz nl nv) (pones O pb nz nl nv) (p_max_prox o) (after x0 (sr_trace r)) (Ok (out, sr_x r))
      end.
    Proof.
      pose proof CD as [RUN NUB HD HG HV HI HST HW HL]. cbv zeta.
      destruct HL as (L1 & L2 & L3 & L4).
      assert (ESAT : saturate O (rsd_norm O (pb_pnr pb (pstart pb x))) (p_inner_tol_min o) (p_inner_tol_max o) =
                if o_ltb O (p_inner_tol_max o) (p_inner_tol_min o) then Throw ESaturate else Ok itol0_of)
        by reflexivity.
      unfold psolve in RUN, NUB. rewrite ESAT in RUN, NUB.
      destruct (o_ltb O (p_inner_tol_max o) (p_inner_tol_min o)).
      { cbn in RUN. subst r. cbn. auto. }
      cbn [wlift wbind wlog] in RUN, NUB.
      set (w0 := pprox O o pb el _ _ _ _ _ _ _ _ _ _) in RUN, NUB.
      pose proof (pprox_prun O o pb el (rsd_norm O (pb_pnr pb (pstart pb x))) (Z.to_nat (p_max_prox o)) itol0_of
                   (pstart pb x) (pones O pb nz nl nv) stale (pb_pnr pb (pstart pb x)) w 0%Z 0%Z) as PR.
      fold w0 in PR.
      destruct (prun_master O o pb vq (ws_ok nz nl nv) Hax Hnw Hpr Hfe itol0_of
                  (pones O pb nz nl nv) el (rsd_norm O (pb_pnr pb (pstart pb x))) L3 _ _ _ _ _ _ _ _ _ _ _ PR
                  (start_ctx (pstart pb x)) eq_refl eq_refl eq_refl Hst HW eq_refl eq_refl) as (M1 & M2).
      { lia. }
      { intro Z0. exfalso. lia. }
      replace (0 + Z.of_nat (Z.to_nat (p_max_prox o)))%Z with (p_max_prox o) in M2 by lia.
      clear PR. destruct w0 as [[lg tr] rr]. cbn [fst snd app] in *.
      destruct rr as [[out xw]|e|u]; cbn [presult] in RUN; subst r; cbn [sr_out sr_x sr_trace].
      - auto.
      - destruct e; auto.
      - discriminate.
    Qed.

    Lemma call_master :
      let x0 := pstart pb x in
      let E0 := rsd_norm O (pb_pnr pb x0) in
      match sr_out r with
      | UB _ => False
      | Throw ESaturate =>
          sr_x r = x /\ 
          ((o_ltb O (p_inner_tol_max o) (p_inner_tol_min o) = true /\ sr_trace r = []) \/
          (o_ltb O (p_inner_tol_max o) (p_inner_tol_min o) = false /\
           trace_ok O o pb vok itol0_of (pones O pb nz nl nv) (start_ctx x0) (sr_trace r) /\
           exit_ok O o pb vok (ws_ok nz nl nv) (pones O pb nz nl nv) (p_max_prox o) (after x0 (sr_trace r)) (Throw ESaturate)))
      | Throw e =>
          sr_x r = x /\ 
          o_ltb O (p_inner_tol_max o) (p_inner_tol_min o) = false /\
          trace_ok O o pb vok itol0_of (pones O pb nz nl nv) (start_ctx x0) (sr_trace r) /\
          exit_ok O o pb vok (ws_ok nz nl nv) (pones O pb nz nl nv) (p_max_prox o) (after x0 (sr_trace r)) (Throw e)
      | Ok out =>
          o_ltb O (p_inner_tol_max o) (p_inner_tol_min o) = false /\
          trace_ok O o pb vok itol0_of (pones O pb nz nl nv) (start_ctx x0) (sr_trace r) /\
          exit_ok O o pb vok (ws_ok nz nl nv) (pones O pb nz nl nv) (p_max_prox o) (after x0 (sr_trace r)) (Ok (out, sr_x r))
      end.
    Proof. exact (call_master_inv vok cl_axpy cl_newton cl_proj cl_feas cl_start). Qed.

    Notation x0 := (pstart pb x).
    Notation ones := (pones O pb nz nl nv).
    Lemma call_events : forall pre g post, sr_trace r = pre ++ g :: post ->
      ev_ok O o pb vok itol0_of ones (after x0 pre) g.
    Proof.
      intros pre g post ET. pose proof call_master as CM. cbv zeta in CM.
      destruct (sr_out r) as [out|e|u]; [| |contradiction].
      - apply CM with post; exact ET.
      - destruct e; try (apply CM with post; exact ET).
        destruct CM as [_ [[_ CM]|CM]]; [rewrite CM in ET; destruct pre; discriminate|apply CM with post; exact ET].
    Qed.
    Lemma call_exit :
      match sr_out r with
      | Ok out => o_ltb O (p_inner_tol_max o) (p_inner_tol_min o) = false /\
          exit_ok O o pb vok (ws_ok nz nl nv) ones (p_max_prox o) (after x0 (sr_trace r)) (Ok (out, sr_x r))
      | Throw e => sr_x r = x /\
          ((e = ESaturate /\ o_ltb O (p_inner_tol_max o) (p_inner_tol_min o) = true /\ sr_trace r = []) \/
           (o_ltb O (p_inner_tol_max o) (p_inner_tol_min o) = false /\
            exit_ok O o pb vok (ws_ok nz nl nv) ones (p_max_prox o) (after x0 (sr_trace r)) (Throw e)))
      | UB _ => False
      end.
    Proof.
      pose proof call_master as CM. cbv zeta in CM.
      destruct (sr_out r) as [out|e|u]; [| |contradiction].
      - tauto.
      - destruct e; tauto.
    Qed.
    Lemma call_projected (P : var T -> Prop) out :
      (forall y, P (proj_duals O y)) -> sr_out r = Ok out -> infeas (so_eflag out) = false ->
      P x0 \/ (0 < so_prox out)%Z -> P (sr_x r).
    Proof.
      pose proof CD as [RUN NUB HD HG HV HI HST HW HL]. intros HP HO HF HX.
      unfold psolve in RUN, NUB.
      destruct (saturate O _ (p_inner_tol_min o) (p_inner_tol_max o)) as [it|e|u].
      2:{ cbn in RUN. subst r. discriminate. }
      2:{ discriminate. }
      cbn [wlift wbind wlog] in RUN, NUB.
      set (w0 := pprox O o pb el _ _ _ _ _ _ _ _ _ _) in RUN, NUB.
      pose proof (pprox_prun O o pb el (rsd_norm O (pb_pnr pb (pstart pb x))) (Z.to_nat (p_max_prox o)) it
                   (pstart pb x) (pones O pb nz nl nv) stale (pb_pnr pb (pstart pb x)) w 0%Z 0%Z) as PR.
      fold w0 in PR.
      pose proof (prun_projected O o pb el _ P _ _ _ _ _ _ _ _ _ _ _ HP PR) as PP.
      clear PR. destruct w0 as [[lg tr] rr]. cbn [fst snd app] in *.
      destruct rr as [[out' xw]|e|u]; cbn [presult] in RUN; subst r; cbn [sr_out sr_x] in *; try discriminate.
      injection HO as ->. apply (PP out xw eq_refl HF HX).
    Qed.

    Lemma call_counts :
      match sr_out r with
      | Ok out =>
        so_newton out = Z.of_nat (count is_lin (sr_trace r)) /\ (so_newton out <= p_max_newton o)%Z /\
        (0 <= so_prox out <= p_max_prox o)%Z /\
        count is_mer (sr_trace r) <= count is_lin (sr_trace r) * Z.to_nat (p_max_ls o) /\
        (Z.of_nat (count is_sub (sr_trace r)) = so_prox out \/
         Z.of_nat (count is_sub (sr_trace r)) = so_prox out + 1)%Z /\
        so_initial out = rsd_norm O (pb_pnr pb (pstart pb x)) /\ so_time out = el
      | _ => (Z.of_nat (count is_lin (sr_trace r)) <= p_max_newton o)%Z /\
        (Z.of_nat (count is_sub (sr_trace r)) <= p_max_prox o)%Z /\
        count is_mer (sr_trace r) <= count is_lin (sr_trace r) * Z.to_nat (p_max_ls o)
      end.
    Proof.
      pose proof CD as [RUN NUB HD HG HV HI HST HW HL].
      destruct HL as (L1 & L2 & L3 & L4).
      unfold psolve in RUN, NUB.
      destruct (saturate O _ (p_inner_tol_min o) (p_inner_tol_max o)) as [it|e|u].
      2:{ cbn in RUN. subst r. cbn -[Z.of_nat count]. rewrite !count_nil. lia. }
      2:{ discriminate. }
      cbn [wlift wbind wlog] in RUN, NUB.
      set (w0 := pprox O o pb el _ _ _ _ _ _ _ _ _ _) in RUN, NUB.
      pose proof (pprox_prun O o pb el (rsd_norm O (pb_pnr pb (pstart pb x))) (Z.to_nat (p_max_prox o)) it
                   (pstart pb x) (pones O pb nz nl nv) stale (pb_pnr pb (pstart pb x)) w 0%Z 0%Z) as PR.
      fold w0 in PR.
      destruct (prun_count O o pb el _ L3 _ _ _ _ _ _ _ _ _ _ _ PR) as (C1 & C2 & C3 & C4); [lia|].
      clear PR. destruct w0 as [[lg tr] rr]. cbn [fst snd app] in *.
      destruct rr as [[out xw]|e|u]; cbn [presult] in RUN; subst r; cbn [sr_out sr_x sr_trace].
      - destruct C4 as (C4 & C5 & C6 & C7). rewrite C4.
        repeat split; try lia; apply C7.
      - lia.
      - lia.
    Qed.
  End Closure.
End Facts.
