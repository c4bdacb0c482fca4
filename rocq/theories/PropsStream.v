(* C66: Solve(qp, &x, os) with the caller's own output stream, whose Print may throw at any
   message.  Everything is stated against the same call with a stream that never throws. *)
From Verif Require Export PropsShared.

(* ---------- specification ---------- *)
Section Spec.
  Context {T : Type} (accepts : list (event T) -> bool).
  (* the stream takes every message of l, printed in this order *)
  Definition takes (l : list (event T)) : Prop :=
    forall p e q, l = p ++ e :: q -> accepts (p ++ [e]) = true.
End Spec.

Section Quiet.
  Context {T : Type} (O : Ops T) (o : params T) (pb : prob T).
  Definition quiet (l : list (event T)) : Prop := Forall (fun e => newton_summary e = false) l.

  Definition tail_ok (w : W T (solver_out T * var T)) : Prop :=
    let '(lg, _, r) := w in
    quiet lg \/
    exists l e out xw, lg = l ++ [e] /\ quiet l /\ r = Ok (out, xw) /\
      so_eflag out = MAXITERATIONS /\ (p_max_newton o <= so_newton out)%Z.

  Lemma quiet_app a b : quiet a -> quiet b -> quiet (a ++ b).
  Proof. intros; apply Forall_app; auto. Qed.

  Lemma pls_quiet fuel : forall j t m0 cm x xb dx ri, fst (fst (pls O o pb fuel j t m0 cm x xb dx ri)) = [].
  Proof.
    induction fuel as [|fuel IH]; intros; cbn [pls]; [reflexivity|].
    cbn [wbind wghost]. destruct (o_leb _ _ _); cbn [wret]; [reflexivity|].
    specialize (IH (S j) (o_mul O t (p_beta o)) m0 cm x xb dx (pb_inner pb (pb_axpy pb t dx x) xb)).
    destruct (pls O o pb fuel _ _ _ _ _ _ _ _) as [[l t'] r]. exact IH.
  Qed.

  Lemma pstep_quiet x xb ri m : fst (fst (pstep O o pb x xb ri m)) = [].
  Proof.
    unfold pstep. destruct (pb_newton pb x xb (rsd_neg O ri)) as [dx|e|u]; cbn [wbind wlift wghost]; try reflexivity.
    match goal with |- context [pls O o pb ?f ?j ?t ?a ?b ?c ?d ?e ?g] =>
      pose proof (pls_quiet f j t a b c d e g) as H; destruct (pls O o pb f j t a b c d e g) as [[l tt] [[[[t1 j1] acc] ri1]|e1|u1]] end;
      cbn [fst snd] in H; subst l; cbn; reflexivity.
  Qed.

  Lemma pinner_quiet fuel : forall i t Eo tol Ek x xb dx ri rk n m,
    quiet (fst (fst (pinner O o pb fuel i t Eo tol Ek x xb dx ri rk n m))).
  Proof.
    assert (Q : forall i t ri, quiet (det_line o i t ri)).
    { intros. unfold det_line. destruct (is_det _); repeat constructor. }
    assert (Q2 : forall ri tol, quiet (det_footer O o ri tol)).
    { intros. unfold det_footer. destruct (is_det _); repeat constructor. }
    induction fuel as [|fuel IH]; intros; cbn [pinner]; [constructor|].
    cbn [wbind wghost]. destruct (_ || _); cbn [wbind wlog wret fst snd app].
    - apply quiet_app; [apply quiet_app; [apply Q|apply Q2]|constructor].
    - destruct (_ <=? _)%Z; [cbn; apply quiet_app; [apply Q|constructor]|].
      match goal with |- context [pstep O o pb ?a ?b ?c ?d] =>
        pose proof (pstep_quiet a b c d) as H; destruct (pstep O o pb a b c d) as [[l tt] [[[[[t1 x1] dx1] ri1] m1]|e|u]] end;
        cbn [fst snd] in H; subst l; cbn [wbind app].
      + match goal with |- context [pinner O o pb fuel ?a1 ?a2 ?a3 ?a4 ?a5 ?a6 ?a7 ?a8 ?a9 ?a10 ?a11 ?a12] =>
          specialize (IH a1 a2 a3 a4 a5 a6 a7 a8 a9 a10 a11 a12);
          destruct (pinner O o pb fuel a1 a2 a3 a4 a5 a6 a7 a8 a9 a10 a11 a12) as [[l2 t2] r2] end.
        cbn [fst snd app] in *. apply quiet_app; [apply Q|exact IH].
      + cbn. apply quiet_app; [apply Q|constructor].
      + cbn. apply quiet_app; [apply Q|constructor].
  Qed.

  Lemma psub_quiet tol Ek xk dx ri rk n : quiet (fst (fst (psub O o pb tol Ek xk dx ri rk n))).
  Proof.
    unfold psub.
    match goal with |- context [pinner O o pb ?f ?a1 ?a2 ?a3 ?a4 ?a5 ?a6 ?a7 ?a8 ?a9 ?a10 ?a11 ?a12] =>
      pose proof (pinner_quiet f a1 a2 a3 a4 a5 a6 a7 a8 a9 a10 a11 a12) as H;
      destruct (pinner O o pb f a1 a2 a3 a4 a5 a6 a7 a8 a9 a10 a11 a12) as [[l2 t2] [[[[[[Eo x1] dx1] ri1] rk1] n1]|e|u]] end;
    cbn in *; rewrite ?app_nil_r; exact H.
  Qed.

  Lemma tail_bind {A} (m : W T A) f : quiet (fst (fst m)) ->
    (forall a, snd m = Ok a -> tail_ok (f a)) -> tail_ok (wbind m f).
  Proof.
    destruct m as [[lg tr] [a|e|u]]; cbn [fst snd wbind]; intros Q H.
    - specialize (H a eq_refl). destruct (f a) as [[l t] r]. unfold tail_ok in *.
      destruct H as [H|(l1 & e & out & xw & -> & H1 & H2)]; [left; apply quiet_app; assumption|].
      right. exists (lg ++ l1), e, out, xw. rewrite app_assoc. split; [reflexivity|].
      split; [apply quiet_app; assumption|exact H2].
    - left. exact Q.
    - left. exact Q.
  Qed.

  Lemma tail_out e el E0 n p rk (x : var T) :
    e <> MAXITERATIONS \/ (n < p_max_newton o)%Z \/ (p_max_newton o <= n)%Z ->
    tail_ok (wbind (poutput O o pb e el E0 n p rk) (fun out => wret (out, x))).
  Proof.
    intro H. unfold poutput, wbind, wlog, wret, tail_ok. cbn [app]. rewrite !app_nil_r. unfold final_line.
    destruct (ge_final _); [|left; constructor].
    destruct (newton_summary (EvFinal e (o_mul O (o_dec O 1000 0) el) p (p_max_prox o) n (p_max_newton o) (r_zn rk) (r_ln rk) (r_vn rk) (pb_combo pb))) eqn:E.
    - right. exists [], (EvFinal e (o_mul O (o_dec O 1000 0) el) p (p_max_prox o) n (p_max_newton o) (r_zn rk) (r_ln rk) (r_vn rk) (pb_combo pb)).
      do 2 eexists. split; [reflexivity|]. split; [constructor|]. split; [reflexivity|].
      cbn [newton_summary] in E. destruct e; try discriminate E. split; [reflexivity|]. apply Z.leb_le. exact E.
    - left. constructor; [exact E|constructor].
  Qed.

  Lemma pprox_tail el E0 fuel : forall itol xk dx ri rk w n p,
    tail_ok (pprox O o pb el E0 fuel itol xk dx ri rk w n p).
  Proof.
    assert (Q : forall p n rk ri t, quiet (iter_line O o p n rk ri t)).
    { intros. unfold iter_line. destruct (is_iter _); repeat constructor. }
    assert (Q2 : forall p n rk, quiet (det_header O o p n rk)).
    { intros. unfold det_header. destruct (is_det _); repeat constructor. }
    induction fuel as [|fuel IH]; intros; cbn [pprox].
    - apply tail_out. right. lia.
    - destruct (_ || _).
      + apply tail_bind; [apply Q|]. intros _ _. apply tail_out. left; discriminate.
      + apply tail_bind; [apply quiet_app; [apply Q2|apply Q]|]. intros _ _.
        apply tail_bind; [constructor|]. intros it _. apply tail_bind; [constructor|]. intros _ _.
        apply tail_bind; [apply psub_quiet|]. intros [[[[[Eo xi] dx1] ri1] rk1] n1] _.
        destruct (p_max_newton o <=? n1)%Z eqn:EN; [apply tail_out; right; lia|].
        apply tail_bind; [constructor|]. intros _ _.
        destruct (if p_check_feas o then _ else _) as [w1 fs].
        destruct fs; cbn [flag_of]; try (apply tail_out; left; discriminate). apply IH.
  Qed.

  Lemma psolve_tail nz nl nv el st w c : tail_ok (psolve O o pb nz nl nv el st w c).
  Proof.
    unfold psolve. apply tail_bind; [constructor|]. intros it _. apply tail_bind.
    - unfold iter_header. destruct (is_iter _); repeat constructor.
    - intros _ _. apply pprox_tail.
  Qed.
End Quiet.

Section Props.
  Context {T : Type} (O : Ops T) (LA : LinAlg T).
  Hypothesis zero_eq : o_eqb O (o_zero O) (o_zero O) = true.

  (* the Newton-limit summary is only ever the last message, of a call that returns
     MAXITERATIONS having used all its Newton steps *)
  Lemma accepted_summary D DI d nz nl nv o x el r p e q :
    solve_call O LA D DI d nz nl nv o x el r ->
    sr_log r = p ++ e :: q -> newton_summary e = true ->
    q = [] /\ exists out, sr_out r = Ok out /\ so_eflag out = MAXITERATIONS /\ (p_max_newton o <= so_newton out)%Z.
  Proof.
    intros call. destruct (call_pure O LA zero_eq _ _ _ _ _ _ _ _ _ _ call) as (pinit & pst & st & w & H).
    cbv zeta in H. destruct H as (-> & _).
    pose proof (psolve_tail O o (prob_of O DI d nz nl nv pinit pst o) nz nl nv el st w x) as Tl.
    destruct (psolve _ _ _ _ _ _ _ _ _ _) as [[lg tr] rr]. unfold tail_ok in Tl.
    intros EL ES.
    assert (EL' : lg = p ++ e :: q) by (destruct rr as [[]| |]; exact EL).
    destruct Tl as [Qt|(l & e' & out & xw & E1 & Qt & -> & E2 & E3)].
    - exfalso. rewrite EL' in Qt. apply Forall_app in Qt. destruct Qt as [_ Qt]. inversion Qt. congruence.
    - rewrite E1 in EL'. cbn [presult sr_out].
      destruct q as [|q0 q] using rev_ind.
      + split; [reflexivity|]. exists out. auto.
      + exfalso. clear IHq. rewrite app_comm_cons, app_assoc in EL'. apply app_inj_tail in EL'.
        destruct EL' as [-> _]. apply Forall_app in Qt. destruct Qt as [_ Qt]. inversion Qt. congruence.
  Qed.

  Lemma takes_none (acc : list (event T) -> bool) l : takes acc l <-> refused acc [] l = None.
  Proof. unfold takes. rewrite refused_none. reflexivity. Qed.

  Lemma first_refused (acc : list (event T) -> bool) p e q : takes acc p -> acc (p ++ [e]) = false ->
    refused acc [] (p ++ e :: q) = Some e /\ upto acc [] (p ++ e :: q) = p.
  Proof.
    intros Tk E. apply takes_none in Tk. rewrite refused_app, upto_app, Tk. cbn [refused upto app].
    rewrite E, app_nil_r. auto.
  Qed.

  (* how the result r' with the stream follows from the result r without *)
  Record with_stream (acc : list (event T) -> bool) (x : var T) (limit : Z) (r r' : solve_result T) : Prop := {
    (* a stream that takes everything makes no difference *)
    ws_same : takes acc (sr_log r) -> r' = r;
    (* otherwise, e being the first message refused and p those before it: the exception
       reaches the caller, and only p was printed; the caller's variables are untouched, unless
       e is the summary of a call that ran out of Newton steps, when they hold the full answer *)
    ws_cut : forall p e q, sr_log r = p ++ e :: q -> takes acc p -> acc (p ++ [e]) = false ->
      sr_out r' = Throw EStream /\ sr_log r' = p /\
      sr_x r' = (if newton_summary e then sr_x r else x) /\
      (newton_summary e = true -> q = [] /\ exists out,
         sr_out r = Ok out /\ so_eflag out = MAXITERATIONS /\ (limit <= so_newton out)%Z) }.

  Lemma with_stream_of acc x limit r r' : stream_of acc x r r' ->
    (forall p e q, sr_log r = p ++ e :: q -> newton_summary e = true -> q = [] /\ exists out,
         sr_out r = Ok out /\ so_eflag out = MAXITERATIONS /\ (limit <= so_newton out)%Z) ->
    with_stream acc x limit r r'.
  Proof.
    unfold stream_of. intros H HS. constructor.
    - intro Tk. apply takes_none in Tk. rewrite Tk in H. exact H.
    - intros p e q EL Tk E. destruct (first_refused acc p e q Tk E) as [E1 E2].
      rewrite EL, E1, E2 in H. destruct H as (H1 & H2 & H3). repeat (split; [assumption|]).
      exact (HS p e q EL).
  Qed.

  Theorem C66_dense_stream : forall acc nz nl nv s qp k x el,
    dense_reach O LA nz nl nv s -> y_fits k x (Z.to_nat nv) ->
    let c := FBstabDense_SolveOn O LA acc s qp k x el in
    with_stream acc x (p_max_newton (ds_options s)) (snd (FBstabDense_Solve O LA s qp k x el)) (snd c) /\
    dense_reach O LA nz nl nv (fst c) /\ ds_options (fst c) = ds_options s.
  Proof.
    intros acc nz nl nv s qp k x el Hr Hy. cbv zeta.
    destruct (dense_reach_inv2 O LA _ _ _ _ Hr) as [I J].
    destruct (dense_solve_on_inv O LA acc nz nl nv s qp k x el I J Hy) as (A & _ & B).
    split; [|split; [apply dr_solve_on; assumption|exact B]].
    apply with_stream_of; [exact A|]. intros p e q EL ES.
    destruct (dense_cases O LA nz nl nv s qp k x el Hr) as [[NS (e' & _ & R)]|[DS (d & Hc & Hv)]].
    - rewrite R in EL. destruct p; discriminate EL.
    - eapply accepted_summary; eauto. eapply sc_dense; eauto.
  Qed.

  Theorem C66_mpc_stream : forall acc N nx nu nc s qp k x el,
    mpc_reach O LA N nx nu nc s -> seqs_valid qp -> single_columns qp -> mpc_fits qp ->
    let c := FBstabMpc_SolveOn O LA acc s qp k x el in
    with_stream acc x (p_max_newton (mps_options s)) (snd (FBstabMpc_Solve O LA s qp k x el)) (snd c) /\
    mpc_reach O LA N nx nu nc (fst c) /\ mps_options (fst c) = mps_options s.
  Proof.
    intros acc N nx nu nc s qp k x el Hr Hs Hc Hf. cbv zeta.
    destruct (mpc_reach_inv2 O LA zero_eq _ _ _ _ _ Hr) as [I J].
    destruct (mpc_solve_on_inv O LA zero_eq acc N nx nu nc s qp k x el I J Hs Hc) as (A & _ & B).
    split; [|split; [apply mr_solve_on; assumption|exact B]].
    apply with_stream_of; [exact A|]. intros p e q EL ES.
    destruct (mpc_cases O LA zero_eq N nx nu nc s qp k x el Hr Hs Hc Hf) as [[NS (e' & _ & R)]|[DS (d & Hd & Hv)]].
    - rewrite R in EL. destruct p; discriminate EL.
    - eapply accepted_summary; eauto. eapply sc_mpc; eauto.
  Qed.

  (* the same on caller memory m, in which the data and the variables (the spans w) may overlap *)
  Record with_stream_mem (acc : list (event T) -> bool) (m : memory T) (r r' : mem_result T) : Prop := {
    wm_same : takes acc (me_log r) -> r' = r;
    wm_cut : forall p e q, me_log r = p ++ e :: q -> takes acc p -> acc (p ++ [e]) = false ->
      me_out r' = Throw EStream /\ me_log r' = p /\
      forall a, me_mem r' a = (if newton_summary e then me_mem r a else m a) }.

  Lemma with_stream_mem_of acc m w r r' : stream_ref_of O acc m w r r' -> with_stream_mem acc m r r'.
  Proof.
    unfold stream_ref_of. intros H. constructor.
    - intro Tk. apply takes_none in Tk. rewrite Tk in H. exact H.
    - intros p e q EL Tk E. destruct (first_refused acc p e q Tk E) as [E1 E2].
      rewrite EL, E1, E2 in H. destruct H as (H1 & H2 & H3). repeat (split; [assumption|]).
      intro a. rewrite H2. destruct (newton_summary e); [reflexivity|]. apply store_load_back.
  Qed.

  Theorem C66_dense_stream_memory : forall acc nz nl nv s m q w el,
    dense_reach O LA nz nl nv s -> sp_len (vv_y w) = Z.to_nat nv ->
    let c := FBstabDense_SolveRefOn O LA acc s m q w el in
    with_stream_mem acc m (snd (FBstabDense_SolveRef O LA s m q w el)) (snd c) /\
    dense_reach O LA nz nl nv (fst c) /\ ds_options (fst c) = ds_options s.
  Proof.
    intros acc nz nl nv s m q w el Hr Hy. cbv zeta.
    destruct (dense_reach_inv2 O LA _ _ _ _ Hr) as [I J].
    destruct (dense_solve_ref_on_inv O LA acc nz nl nv s m q w el I J Hy) as (A & _ & B).
    split; [eapply with_stream_mem_of; exact A|]. split; [apply dr_solve_ref_on; assumption|exact B].
  Qed.

  Theorem C66_mpc_stream_memory : forall acc N nx nu nc s m q w el,
    mpc_reach O LA N nx nu nc s -> seqs_valid (load_mpc m q) -> single_columns (load_mpc m q) ->
    let c := FBstabMpc_SolveRefOn O LA acc s m q w el in
    with_stream_mem acc m (snd (FBstabMpc_SolveRef O LA s m q w el)) (snd c) /\
    mpc_reach O LA N nx nu nc (fst c) /\ mps_options (fst c) = mps_options s.
  Proof.
    intros acc N nx nu nc s m q w el Hr Hs Hc. cbv zeta.
    destruct (mpc_reach_inv2 O LA zero_eq _ _ _ _ _ Hr) as [I J].
    destruct (mpc_solve_ref_on_inv O LA zero_eq acc N nx nu nc s m q w el I J Hs Hc) as (A & _ & B).
    split; [eapply with_stream_mem_of; exact A|]. split; [apply mr_solve_ref_on; assumption|exact B].
  Qed.
End Props.
