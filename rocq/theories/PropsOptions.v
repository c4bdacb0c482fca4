(* UpdateOptions (C01-C04) and what it guarantees to Solve, on IEEE doubles and on reals. *)
From Coq Require Import Reals Lra Floats.SpecFloat.
From Verif Require Export PropsApi ParamsProofs Examples.
Import ParamsProofs.
Local Open Scope nat_scope.

(* ---------- specification ---------- *)

(* y is x clamped to [lo,hi] *)
Record clamped {T} (O : Ops T) (lo hi x y : T) : Prop := {
  cl_range : between O lo y hi;
  cl_keep : between O lo x hi -> y = x;
  cl_low : o_ltb O x lo = true -> y = lo;
  cl_high : o_ltb O hi x = true -> y = hi }.
Record floored {T} (O : Ops T) (lo x y : T) : Prop := {
  fl_range : o_leb O lo y = true;
  fl_keep : o_leb O lo x = true -> y = x;
  fl_low : o_ltb O x lo = true -> y = lo }.

(* every field of p is the field of o clamped to its documented range *)
Record clamps {T} (O : Ops T) (o p : params T) : Prop := {
  cs_sigma_max : clamped O (o_dec O 1 (-6)) (o_dec O 1 2) (p_sigma_max o) (p_sigma_max p);
  cs_sigma_min : clamped O (o_dec O 1 (-13)) (o_dec O 1 (-8)) (p_sigma_min o) (p_sigma_min p);
  (* sigma0: the larger of the two lower bounds 1e-10 and sigma_min *)
  cs_sigma0 : between O (p_sigma_min p) (p_sigma0 p) (p_sigma_max p) /\
              o_leb O (o_dec O 1 (-10)) (p_sigma0 p) = true /\
              (between O (p_sigma_min p) (p_sigma0 o) (p_sigma_max p) ->
               o_leb O (o_dec O 1 (-10)) (p_sigma0 o) = true -> p_sigma0 p = p_sigma0 o);
  cs_alpha : clamped O (o_dec O 1 (-3)) (o_dec O 999 (-3)) (p_alpha o) (p_alpha p);
  cs_beta : clamped O (o_dec O 1 (-1)) (o_dec O 99 (-2)) (p_beta o) (p_beta p);
  cs_eta : clamped O (o_dec O 1 (-12)) (o_dec O 499 (-3)) (p_eta o) (p_eta p);
  cs_delta : clamped O (o_dec O 1 (-4)) (o_dec O 99 (-2)) (p_delta o) (p_delta p);
  cs_gamma : clamped O (o_dec O 1 (-3)) (o_dec O 9 (-1)) (p_gamma o) (p_gamma p);
  cs_abs : floored O (o_dec O 1 (-14)) (p_abs_tol o) (p_abs_tol p);
  cs_rel : floored O (o_zero O) (p_rel_tol o) (p_rel_tol p);
  cs_stall : floored O (o_dec O 1 (-14)) (p_stall_tol o) (p_stall_tol p);
  cs_infeas : floored O (o_dec O 1 (-14)) (p_infeas_tol o) (p_infeas_tol p);
  cs_itmax : clamped O (o_dec O 1 (-8)) (o_dec O 1 2) (p_inner_tol_max o) (p_inner_tol_max p);
  cs_itmin : clamped O (o_dec O 1 (-14)) (o_dec O 1 (-2)) (p_inner_tol_min o) (p_inner_tol_min p);
  cs_newton : p_max_newton p = Z.max 1 (p_max_newton o);
  cs_prox : p_max_prox p = Z.max 1 (p_max_prox o);
  cs_inner : p_max_inner p = Z.max 1 (p_max_inner o);
  cs_ls : p_max_ls p = Z.max 1 (p_max_ls o);
  cs_flags : p_check_feas p = p_check_feas o /\ p_nonmonotone p = p_nonmonotone o /\
             p_display p = p_display o }.

(* the two arithmetics of interest: doubles (num = not NaN) and reals *)
Record option_arith {T} (O : Ops T) (num : T -> Prop) : Prop := {
  oa_ord : OrdLaws O num; oa_lit : LitLaws O; oa_dec : forall x, num x \/ ~ num x;
  oa_pos : o_ltb O (o_zero O) (o_dec O 1 (-10)) = true }.

Lemma doubles : option_arith Fops Fnum.
Proof. constructor; [apply ord_F|apply lit_F|apply Fnum_dec|vm_compute; reflexivity]. Qed.
Lemma reals : option_arith Rops (fun _ => True).
Proof.
  constructor; [apply ord_R|apply lit_R|auto|]. cbn. apply Rltb_true. unfold Rdec; cbn. lra.
Qed.

Section Options.
  Context {T : Type} {O : Ops T} {num : T -> Prop} (OA : option_arith O num) (LA : LinAlg T).
  Let OL := oa_ord _ _ OA. Let LL := oa_lit _ _ OA. Let HD := oa_dec _ _ OA.

  (* ---------------------------------------------------------------- C03 *)
  (* UpdateOptions of either solver never throws and never does anything undefined, NaN included *)
  Theorem C03_update_never_throws :
    (forall s o, snd (FBstabDense_UpdateOptions O s o) = Ok tt) /\
    (forall s o, snd (FBstabMpc_UpdateOptions O s o) = Ok tt).
  Proof.
    split; intros s o; unfold FBstabDense_UpdateOptions, FBstabMpc_UpdateOptions;
      rewrite (update_ok OL LL HD); reflexivity.
  Qed.

  Lemma dense_opts s o : ds_options (fst (FBstabDense_UpdateOptions O s o)) = validated (O:=O) o.
  Proof. unfold FBstabDense_UpdateOptions. rewrite (update_ok OL LL HD). reflexivity. Qed.
  Lemma mpc_opts s o : mps_options (fst (FBstabMpc_UpdateOptions O s o)) = validated (O:=O) o.
  Proof. unfold FBstabMpc_UpdateOptions. rewrite (update_ok OL LL HD). reflexivity. Qed.

  (* ---------------------------------------------------------------- C01 *)
  Lemma sat_clamped x a b : num x -> o_leb O a b = true -> clamped O a b x (sat (O:=O) x a b).
  Proof.
    intros N L. constructor.
    - apply (sat_between OL); assumption.
    - intro B. apply (sat_id OL); exact B.
    - intro H. unfold sat, smax, smin.
      assert (X : o_ltb O b x = false).
      { apply (leb_ltb_false OL). apply (ltb_leb OL) in H. eapply (ol_trans _ _ OL); eassumption. }
      rewrite X, H. reflexivity.
    - intro H. unfold sat, smax, smin. rewrite H, (leb_ltb_false OL _ _ L). reflexivity.
  Qed.
  Lemma smax_floored x a : num x -> num a -> floored O a x (smax O x a).
  Proof.
    intros N L. constructor.
    - apply (smax_ge OL); assumption.
    - intro B. apply (smax_id OL); exact B.
    - intro H. unfold smax. rewrite H. reflexivity.
  Qed.

  Lemma validated_clamps o : nan_free num o -> clamps O o (validated (O:=O) o).
  Proof.
    intro NF. pose proof (validated_admissible OL LL o NF) as AD. destruct NF.
    pose proof (lit_num_l OL _ _ _ _ (ll_itmin _ LL)) as N14.
    constructor; try (apply sat_clamped; [assumption|apply LL]); try (apply smax_floored; auto);
      try (cbn; lia); try (apply (ol_zero_num _ _ OL)).
    - split; [apply AD|]. split; [apply AD|]. intros B1 B2. cbn [p_sigma0 validated].
      rewrite (smax_id OL _ _ B2). apply (sat_id OL). exact B1.
    - repeat split.
  Qed.

  Theorem C01_update_clamps : forall o, nan_free num o ->
    (forall s, let p := ds_options (fst (FBstabDense_UpdateOptions O s o)) in
               admissible O p /\ clamps O o p) /\
    (forall s, let p := mps_options (fst (FBstabMpc_UpdateOptions O s o)) in
               admissible O p /\ clamps O o p).
  Proof.
    intros o NF. split; intro s; cbv zeta; rewrite ?dense_opts, ?mpc_opts;
      (split; [apply (validated_admissible OL LL); exact NF|apply validated_clamps; exact NF]).
  Qed.

  (* ---------------------------------------------------------------- C02 *)
  Theorem C02_update_preserves : forall o, admissible O o ->
    (forall s, ds_options (fst (FBstabDense_UpdateOptions O s o)) = o) /\
    (forall s, mps_options (fst (FBstabMpc_UpdateOptions O s o)) = o).
  Proof.
    intros o H. split; intro s; rewrite ?dense_opts, ?mpc_opts; apply (validated_id OL); exact H.
  Qed.

  (* installing what is installed changes nothing; what was installed before is irrelevant *)
  Theorem C02_update_idempotent : forall o,
    (forall s s', let p := ds_options (fst (FBstabDense_UpdateOptions O s o)) in
       ds_options (fst (FBstabDense_UpdateOptions O s' p)) = p /\
       ds_options (fst (FBstabDense_UpdateOptions O s' o)) = p) /\
    (forall s s', let p := mps_options (fst (FBstabMpc_UpdateOptions O s o)) in
       mps_options (fst (FBstabMpc_UpdateOptions O s' p)) = p /\
       mps_options (fst (FBstabMpc_UpdateOptions O s' o)) = p).
  Proof.
    intro o. split; intros s s'; cbv zeta; rewrite ?dense_opts, ?mpc_opts;
      (split; [apply (validated_idem OL LL HD)|reflexivity]).
  Qed.

  (* ---------------------------------------------------------------- C04 *)
  (* what happens to NaN: the field is stored as it is *)
  Theorem C04_nan_survives : forall o, ~ num (p_alpha o) ->
    (forall s, p_alpha (ds_options (fst (FBstabDense_UpdateOptions O s o))) = p_alpha o) /\
    (forall s, p_alpha (mps_options (fst (FBstabMpc_UpdateOptions O s o))) = p_alpha o).
  Proof.
    intros o H. split; intro s; rewrite ?dense_opts, ?mpc_opts; apply (validated_alpha_nan OL); exact H.
  Qed.

  (* ---------------------------------------------------------------- C48 *)
  (* sigma0 never compares <= 0 in a reachable solver, NaN options included *)
  Lemma sigma_ok o : o_leb O (p_sigma0 (validated (O:=O) o)) (o_zero O) = false.
  Proof.
    destruct (o_leb O _ _) eqn:E; [exfalso|reflexivity].
    assert (K : forall s, o_leb O (o_dec O 1 (-10)) s = true -> o_leb O s (o_zero O) = false).
    { intros s H. destruct (o_leb O s (o_zero O)) eqn:E2; [|reflexivity].
      pose proof (ol_trans _ _ OL _ _ _ H E2) as H3. pose proof (oa_pos _ _ OA) as P.
      rewrite (leb_ltb_false OL _ _ H3) in P. discriminate. }
    cbn [validated p_sigma0] in E. revert E.
    set (SX := sat (p_sigma_max o) (o_dec O 1 (-6)) (o_dec O 1 2)).
    set (SN := sat (p_sigma_min o) (o_dec O 1 (-13)) (o_dec O 1 (-8))).
    pose proof (lit_num_l OL _ _ _ _ (ll_s0a _ LL)) as N10.
    destruct (HD (p_sigma0 o)) as [N0|N0].
    2:{ unfold smax at 1. rewrite (nan_ltb_l OL) by exact N0. rewrite (sat_nan OL) by exact N0.
        intro E. destruct N0. apply (ol_leb_num _ _ OL _ _ E). }
    set (s1 := smax O (p_sigma0 o) (o_dec O 1 (-10))).
    assert (G : o_leb O (o_dec O 1 (-10)) s1 = true) by (apply (smax_ge OL); assumption).
    assert (G1 : o_leb O (o_dec O 1 (-10)) (smin O s1 SX) = true).
    { unfold smin. destruct (o_ltb O SX s1) eqn:E; [|exact G].
      destruct (HD (p_sigma_max o)) as [NX|NX].
      - eapply (ol_trans _ _ OL); [apply (ll_s0a _ LL)|]. apply (sat_between OL _ _ _ NX (ll_smax _ LL)).
      - unfold SX in E. rewrite (sat_nan OL), (nan_ltb_l OL) in E by exact NX. discriminate. }
    assert (G2 : o_leb O (o_dec O 1 (-10)) (sat (O:=O) s1 SN SX) = true).
    { unfold sat, smax. destruct (o_ltb O (smin O s1 SX) SN) eqn:E; [|exact G1].
      eapply (ol_trans _ _ OL); [exact G1|]. apply (ltb_leb OL). exact E. }
    rewrite (K _ G2). discriminate.
  Qed.

  Hypothesis default_ok : admissible O (DefaultParameters O).

  Lemma default_validated : validated (O:=O) (DefaultParameters O) = DefaultParameters O.
  Proof. apply (validated_id OL). exact default_ok. Qed.

  Hypothesis zero_eq : o_eqb O (o_zero O) (o_zero O) = true.

  (* the options of a reachable solver are always the validation of something *)
  Lemma dense_reach_opts nz nl nv s : dense_reach O LA nz nl nv s -> exists o, ds_options s = validated (O:=O) o.
  Proof.
    induction 1 as [g s H|s o Hr IH|s qp k x el Hr IH Hy|s m q w el Hr IH Hy
                   |acc s qp k x el Hr IH Hy|acc s m q w el Hr IH Hy].
    - destruct (dense_new_inv O g nz nl nv s H) as [_ ->]. eauto using default_validated.
    - rewrite dense_opts. eauto.
    - destruct (dense_solve_inv O LA nz nl nv s qp k x el) as [_ ->]; auto.
      eapply dense_reach_inv; eauto.
    - destruct (dense_solve_ref_inv O LA nz nl nv s m q w el) as [_ ->]; auto.
      eapply dense_reach_inv; eauto.
    - destruct (dense_reach_inv2 O LA nz nl nv s Hr) as [I J].
      destruct (dense_solve_on_inv O LA acc nz nl nv s qp k x el I J Hy) as (_ & _ & ->). exact IH.
    - destruct (dense_reach_inv2 O LA nz nl nv s Hr) as [I J].
      destruct (dense_solve_ref_on_inv O LA acc nz nl nv s m q w el I J Hy) as (_ & _ & ->). exact IH.
  Qed.
  Lemma mpc_reach_opts N nx nu nc s : mpc_reach O LA N nx nu nc s -> exists o, mps_options s = validated (O:=O) o.
  Proof.
    induction 1 as [g s H|s o Hr IH|s qp k x el Hr IH Hs Hc|s m q w el Hr IH Hs Hc
                   |acc s qp k x el Hr IH Hs Hc|acc s m q w el Hr IH Hs Hc].
    - destruct (mpc_new_inv O g N nx nu nc s H) as [_ ->]. eauto using default_validated.
    - rewrite mpc_opts. eauto.
    - destruct (mpc_solve_inv O LA zero_eq N nx nu nc s qp k x el) as [_ ->]; auto.
      eapply mpc_reach_inv; eauto.
    - destruct (mpc_solve_ref_inv O LA zero_eq N nx nu nc s m q w el) as [_ ->]; auto.
      eapply mpc_reach_inv; eauto.
    - destruct (mpc_reach_inv2 O LA zero_eq N nx nu nc s Hr) as [I J].
      destruct (mpc_solve_on_inv O LA zero_eq acc N nx nu nc s qp k x el I J Hs Hc) as (_ & _ & ->). exact IH.
    - destruct (mpc_reach_inv2 O LA zero_eq N nx nu nc s Hr) as [I J].
      destruct (mpc_solve_ref_on_inv O LA zero_eq acc N nx nu nc s m q w el I J Hs Hc) as (_ & _ & ->). exact IH.
  Qed.

  Lemma call_opts D DI d nz nl nv o x el r : solve_call O LA D DI d nz nl nv o x el r ->
    exists o0, o = validated (O:=O) o0.
  Proof. intros []; [eapply dense_reach_opts|eapply mpc_reach_opts]; eauto. Qed.

  (* An accepted Solve can only throw for a failed factorisation or for the tolerance clamp:
     never because sigma is not positive, whatever options were passed to UpdateOptions. *)
  Theorem C48_solve_exceptions : forall D (DI : DataI T D) d nz nl nv o x el r e,
    solve_call O LA D DI d nz nl nv o x el r -> sr_out r = Throw e ->
    e = ESaturate \/ e = EInitFailed.
  Proof.
    intros D DI d nz nl nv o x el r e call E.
    destruct (call_opts _ _ _ _ _ _ _ _ _ _ call) as [o0 Ho].
    destruct (call_desc_ex O LA zero_eq _ _ _ _ _ _ _ _ _ _ call) as (pinit & pst & stale & w & CD).
    pose proof (call_exit O _ _ _ _ _ _ _ _ _ _ _ _ _ CD) as EX. rewrite E in EX.
    destruct EX as [_ [(-> & _)|(_ & _ & [(-> & _)|(_ & H)])]]; auto.
    revert H. unfold pb_newton, prob_of, pnewton.
    rewrite (cd_init _ _ _ _ _ _ _ _ _ _ _ _ _ _ CD). rewrite Ho, sigma_ok.
    destruct (unres true _); [discriminate|]. intros [= <-]. auto.
  Qed.
End Options.

(* boolean check of admissibility, to decide concrete cases on doubles *)
Definition admissibleb {T} (O : Ops T) (o : params T) : bool :=
  let btw a x b := o_leb O a x && o_leb O x b in
  btw (o_dec O 1 (-6)) (p_sigma_max o) (o_dec O 1 2) &&
  btw (o_dec O 1 (-13)) (p_sigma_min o) (o_dec O 1 (-8)) &&
  btw (p_sigma_min o) (p_sigma0 o) (p_sigma_max o) &&
  o_leb O (o_dec O 1 (-10)) (p_sigma0 o) &&
  btw (o_dec O 1 (-3)) (p_alpha o) (o_dec O 999 (-3)) &&
  btw (o_dec O 1 (-1)) (p_beta o) (o_dec O 99 (-2)) &&
  btw (o_dec O 1 (-12)) (p_eta o) (o_dec O 499 (-3)) &&
  btw (o_dec O 1 (-4)) (p_delta o) (o_dec O 99 (-2)) &&
  btw (o_dec O 1 (-3)) (p_gamma o) (o_dec O 9 (-1)) &&
  o_leb O (o_dec O 1 (-14)) (p_abs_tol o) && o_leb O (o_zero O) (p_rel_tol o) &&
  o_leb O (o_dec O 1 (-14)) (p_stall_tol o) && o_leb O (o_dec O 1 (-14)) (p_infeas_tol o) &&
  btw (o_dec O 1 (-8)) (p_inner_tol_max o) (o_dec O 1 2) &&
  btw (o_dec O 1 (-14)) (p_inner_tol_min o) (o_dec O 1 (-2)) &&
  (1 <=? p_max_newton o)%Z && (1 <=? p_max_prox o)%Z && (1 <=? p_max_inner o)%Z && (1 <=? p_max_ls o)%Z.
Lemma admissibleb_ok {T} (O : Ops T) o : admissibleb O o = true -> admissible O o.
Proof.
  unfold admissibleb. rewrite !andb_true_iff, !Z.leb_le. intro H.
  constructor; unfold between; tauto.
Qed.

(* C02: the two presets are installed verbatim (doubles) *)
Theorem C02_presets_verbatim :
  admissible Fops (DefaultParameters Fops) /\ admissible Fops (ReliableParameters Fops) /\
  (forall s, ds_options (fst (FBstabDense_UpdateOptions Fops s (DefaultParameters Fops))) = DefaultParameters Fops) /\
  (forall s, ds_options (fst (FBstabDense_UpdateOptions Fops s (ReliableParameters Fops))) = ReliableParameters Fops) /\
  (forall s, mps_options (fst (FBstabMpc_UpdateOptions Fops s (DefaultParameters Fops))) = DefaultParameters Fops) /\
  (forall s, mps_options (fst (FBstabMpc_UpdateOptions Fops s (ReliableParameters Fops))) = ReliableParameters Fops).
Proof.
  assert (A : admissible Fops (DefaultParameters Fops)) by (apply admissibleb_ok; vm_compute; reflexivity).
  assert (B : admissible Fops (ReliableParameters Fops)) by (apply admissibleb_ok; vm_compute; reflexivity).
  destruct (C02_update_preserves doubles _ A) as [A1 A2]. destruct (C02_update_preserves doubles _ B) as [B1 B2].
  auto 10.
Qed.

Lemma default_R : admissible Rops (DefaultParameters Rops).
Proof.
  constructor; unfold between; cbn; unfold Rdec; cbn; try lia; try split; apply Rleb_true; lra.
Qed.
Lemma default_F : admissible Fops (DefaultParameters Fops).
Proof. apply C02_presets_verbatim. Qed.

(* C04 as users expect it is false: a NaN alpha is accepted and kept. *)
Definition with_alpha {T} (a : T) (o : params T) : params T :=
  mkParams (p_sigma0 o) (p_sigma_max o) (p_sigma_min o) a (p_beta o) (p_eta o) (p_delta o)
    (p_gamma o) (p_abs_tol o) (p_rel_tol o) (p_stall_tol o) (p_infeas_tol o) (p_inner_tol_max o)
    (p_inner_tol_min o) (p_max_newton o) (p_max_prox o) (p_max_inner o) (p_max_ls o)
    (p_check_feas o) (p_nonmonotone o) (p_display o).
Theorem C04_nan_rejected_refuted :
  ~ (forall s o, Fnum (p_alpha (ds_options (fst (FBstabDense_UpdateOptions Fops s o))))).
Proof.
  intro H.
  destruct (FBstabDense_new Fops g0 1 0 1) as [s|e|u] eqn:E; [|discriminate..].
  specialize (H s (with_alpha S754_nan dflt)).
  destruct (C04_nan_survives doubles (with_alpha S754_nan dflt)) as [H1 _].
  { intro N. apply N. reflexivity. }
  rewrite H1 in H. apply H. reflexivity.
Qed.

(* A default-constructed option struct differs from DefaultOptions() (it is a third preset) and is
   not admissible: its sigma_max 1e-8 lies below the lower bound, so UpdateOptions changes it. *)
Theorem C49_struct_defaults :
  struct_defaults Fops <> DefaultParameters Fops /\
  ~ admissible Fops (struct_defaults Fops) /\
  (forall s, p_sigma_max (ds_options (fst (FBstabDense_UpdateOptions Fops s (struct_defaults Fops)))) =
             Fdec 1 (-6)).
Proof.
  split; [|split].
  - intro H. apply (f_equal p_max_newton) in H. discriminate H.
  - intro A. destruct (ad_sigma_max _ _ A) as [H _]. vm_compute in H. discriminate.
  - intro s. rewrite (dense_opts doubles). vm_compute. reflexivity.
Qed.

(* non-vacuity: a concrete out-of-range option struct, clamped *)
Example C01_witness :
  let o := with_alpha (Fint 7) dflt in
  nan_free Fnum o /\ ~ admissible Fops o /\
  p_alpha (validated (O:=Fops) o) = Fdec 999 (-3).
Proof.
  split; [|split].
  - constructor; vm_compute; discriminate.
  - intro A. destruct (ad_alpha _ _ A) as [_ H]. vm_compute in H. discriminate.
  - vm_compute. reflexivity.
Qed.
Print Assumptions C01_update_clamps.
Print Assumptions C02_presets_verbatim.
Print Assumptions C48_solve_exceptions.
