(* C52, C53, C54: the outer (proximal) iteration of a run on a convex problem, in exact arithmetic. *)
From Verif Require Export ProxSpec Shape PropsDescent.
Local Open Scope R_scope.

(* ---------- specification ---------- *)
Definition pt_of (x : var R) : pt := mkPt (rg (v_z x)) (rg (v_l x)) (rg (v_v x)).
(* norm of the residual of the subproblem centred at xb, at the point u *)
Definition inner_error (P : QP) (o : params R) (u xb : var R) : R :=
  nrm P (sub_at P (p_alpha o) (p_sigma0 o) (pt_of u) (pt_of xb)).
(* the residuals at which the subproblems of a run were left, summed *)
Fixpoint total_error (P : QP) (o : params R) (c : ctx R) (tr : list (ghost R)) : R :=
  match tr with
  | [] => 0
  | g :: tr' => match g with GProject _ => inner_error P o (c_x c) (c_center c) | _ => 0 end +
                total_error P o (upd c g) tr'
  end.
(* the squared lengths of the proximal steps, summed; their number *)
Fixpoint square_steps (P : QP) (tr : list (ghost R)) : R :=
  match tr with
  | [] => 0
  | g :: tr' => match g with GProx dx => nrm P (pt_of dx) * nrm P (pt_of dx) | _ => 0 end + square_steps P tr'
  end.
(* how much the iterates can travel from a start at distance Dd of a solution when the residuals sum to Sm *)
Definition sq_bound (P : QP) (o : params R) (Dd Sm : R) : R :=
  let kap := kappa_of P (p_alpha o) (p_sigma0 o) in let mu := mu_of (p_alpha o) in
  Dd * Dd + 2 * Sm * ((kap + 3 * mu) * (Dd + (kap + mu) * Sm) + (kap + mu) * (kap + mu) * Sm).
Definition is_prox (g : ghost R) : bool := match g with GProx _ => true | _ => false end.

(* ---------- proofs ---------- *)
Section Run.
  Context {LA : LinAlg R} {P : QP} {o : params R} {x : var R} {el : R} {r : solve_result R}
          {D : Type} {DI : DataI R D} {d : D} {pinit : R -> R -> var R -> var R -> res bool}
          {pst : R -> R -> var R -> var R -> rsd R -> var R} {stale : rsd R} {w : ws R}.
  Hypothesis RC : rcall LA P o x el r D DI d pinit pst stale w.
  Notation nz := (n_z P). Notation nl := (n_l P). Notation nv := (n_v P).
  Notation vok := (var_ok nz nl nv).
  Notation pb := (prob_of Rops DI d nz nl nv pinit pst o).
  Let EX := rc_ex _ _ _ _ _ _ _ _ _ _ _ _ _ RC.
  Let CD := rc_cd _ _ _ _ _ _ _ _ _ _ _ _ _ RC.

  Lemma error_is y yb : @vm P y -> vok yb ->
    rsd_norm Rops (pb_inner pb y yb) = inner_error P o y yb.
  Proof.
    intros [V M] VB.
    pose proof (sub_residual_R DI d P EX (p_alpha o) (p_sigma0 o) y yb V VB) as E.
    rewrite (br_sub Rops _ _ _ _ _ _ _ _ _ _ _ _ _ CD y yb V VB) in E.
    apply (f_equal (fun q => match q with Ok a => a | _ => 0 end)) in E. cbv beta iota in E. rewrite E.
    unfold inner_error, nrm, ip, sumsq, sub_at, pt_of; cbn [pz pl pv]. apply (f_equal sqrt). apply (f_equal2 Rplus); [reflexivity|]. apply rsum_ext; intros i Hi.
    unfold sub_v, gap; cbn [pz pl pv]. rewrite (M i Hi). reflexivity.
  Qed.
  Lemma vm_unproj y : @vm P (proj_duals Rops y) -> @vm P y.
  Proof.
    intros [(A1 & A2 & A3 & A4) M]. split; [|exact M].
    split; [exact A1|]. split; [exact A2|]. split; [|exact A4].
    cbn [proj_duals v_v] in A3. rewrite tab_length in A3. exact A3.
  Qed.
  Lemma proj_pt y i : vok y -> (i < nv)%nat -> rg (v_v (proj_duals Rops y)) i = Rmax (rg (v_v y) i) 0.
  Proof.
    intros (V1 & V2 & V3 & V4) Hi. cbn [proj_duals v_v]. rewrite V3, (vget_tab Rops) by exact Hi.
    rewrite smax_R. reflexivity.
  Qed.
  Lemma dist_ext (a b a' b' : pt) : 
    (forall i, (i < nz)%nat -> pz a i = pz a' i) -> (forall i, (i < nl)%nat -> pl a i = pl a' i) ->
    (forall i, (i < nv)%nat -> pv a i = pv a' i) ->
    (forall i, (i < nz)%nat -> pz b i = pz b' i) -> (forall i, (i < nl)%nat -> pl b i = pl b' i) ->
    (forall i, (i < nv)%nat -> pv b i = pv b' i) -> pdist P a b = pdist P a' b'.
  Proof.
    intros. apply nrm_ext; intros i Hi; unfold pminus; cbn [pz pl pv]; f_equal; auto.
  Qed.
  Lemma dist_proj y b : vok y -> pdist P (pt_of (proj_duals Rops y)) b = pdist P (clamp_duals (pt_of y)) b.
  Proof. intro V. apply dist_ext; try reflexivity. intros i Hi. apply (proj_pt y i V Hi). Qed.
  Lemma step_norm y z : @vm P y -> @vm P z -> nrm P (pt_of (pb_axpy pb (o_mone Rops) y z)) = pdist P (pt_of z) (pt_of y).
  Proof.
    intros Vy Vz. rewrite (axpy_line RC) by assumption. apply nrm_ext; intros i Hi; unfold on_line, pt_of, pminus; cbn [pz pl pv v_z v_l v_v];
      rewrite (vget_tab Rops) by exact Hi; cbn; lra.
  Qed.

  (* the events inside a subproblem leave the centre, the last step and the error sum alone *)
  Lemma inner_events l : Forall is_inner l -> forall c,
    c_center (fold_left upd l c) = c_center c /\ c_step (fold_left upd l c) = c_step c /\
    (forall tr, total_error P o c (l ++ tr) = total_error P o (fold_left upd l c) tr) /\
    (forall tr, square_steps P (l ++ tr) = square_steps P tr) /\ forall tr, count is_prox (l ++ tr) = count is_prox tr.
  Proof.
    induction 1 as [|g l Hg Hl IH]; intro c; [cbn; auto|].
    destruct (IH (upd c g)) as (A & B & C & E & F). cbn [fold_left app total_error square_steps].
    assert (X : c_center (upd c g) = c_center c /\ c_step (upd c g) = c_step c) by (destruct g; try contradiction; split; reflexivity).
    destruct X as [X1 X2]. rewrite A, B, X1, X2. split; [reflexivity|]. split; [reflexivity|].
    split; [intro tr|split; intro tr].
    - rewrite C. destruct g; try contradiction; ring.
    - rewrite E. destruct g; try contradiction; ring.
    - rewrite count_cons, F. destruct g; try contradiction; reflexivity.
  Qed.

  Notation al := (p_alpha o). Notation sg := (p_sigma0 o).
  Hypothesis Ha : 0 < al < 1.
  Hypothesis Hs : 0 < sg.
  Hypothesis Cv : convex P.
  Variable s : pt.
  Hypothesis KS : KKT P (pz s) (pl s) (pv s).
  Notation kap := (kappa_of P al sg). Notation mu := (mu_of al).
  Notation itol0 := (itol0_of Rops DI d nz nl nv o x pinit pst).
  Notation ones := (pones Rops pb nz nl nv).

  Lemma total_error_pos tr : forall c, 0 <= total_error P o c tr.
  Proof.
    induction tr as [|g tr IH]; intro c; cbn [total_error]; [lra|].
    assert (K := IH (upd c g)). assert (0 <= match g with GProject _ => inner_error P o (c_x c) (c_center c) | _ => 0 end).
    { destruct g; try lra. apply nrm_pos. }
    lra.
  Qed.

  Notation sq_bound := (sq_bound P o).

  Lemma compose_bounds Dd E Dd' Sm q : 0 <= Dd -> 0 <= E -> 0 <= Dd' -> 0 <= Sm ->
    Dd' <= Dd + (kap + mu) * E ->
    Dd' * Dd' + q <= Dd * Dd + 2 * E * ((kap + 3 * mu) * Dd + (kap + mu) * (kap + mu) * E) ->
    forall rest, rest <= sq_bound Dd' Sm -> q + rest <= sq_bound Dd (E + Sm).
  Proof.
    intros PD PE PD' PS H1 H2 rest H3.
    assert (PK := kappa_pos P al sg Ha Hs). assert (PM := mu_pos al Ha).
    set (b := kap + mu) in *. set (a := kap + 3 * mu) in *.
    assert (Pb : 0 < b) by (unfold b; lra). assert (Pa : 0 < a) by (unfold a; lra).
    unfold PropsProx.sq_bound in *. cbv zeta in *. fold a b. fold a b in H3.
    assert (Q1 : 0 <= b * Sm) by (apply Rmult_le_pos; lra). assert (Q2 : 0 <= b * E) by (apply Rmult_le_pos; lra).
    assert (Q3 : 2 * Sm * (a * (Dd' + b * Sm) + b * b * Sm) <= 2 * Sm * (a * (Dd + b * (E + Sm)) + b * b * (E + Sm))).
    { apply Rmult_le_compat_l; [lra|]. apply Rplus_le_compat.
      - apply Rmult_le_compat_l; lra.
      - apply Rmult_le_compat_l; [apply Rmult_le_pos; lra|lra]. }
    assert (Q4 : 2 * E * (a * Dd + b * b * E) <= 2 * E * (a * (Dd + b * (E + Sm)) + b * b * (E + Sm))).
    { apply Rmult_le_compat_l; [lra|]. apply Rplus_le_compat.
      - apply Rmult_le_compat_l; lra.
      - apply Rmult_le_compat_l; [apply Rmult_le_pos; lra|lra]. }
    lra.
  Qed.
  Lemma sq_bound_mono Dd Sm : 0 <= Dd -> 0 <= Sm -> Dd * Dd <= sq_bound Dd Sm.
  Proof.
    intros PD PS. unfold PropsProx.sq_bound; cbv zeta.
    assert (PK := kappa_pos P al sg Ha Hs). assert (PM := mu_pos al Ha).
    assert (0 <= (kap + mu) * Sm) by (apply Rmult_le_pos; lra).
    assert (0 <= (kap + 3 * mu) * (Dd + (kap + mu) * Sm)) by (apply Rmult_le_pos; lra).
    assert (0 <= (kap + mu) * (kap + mu) * Sm) by (apply Rmult_le_pos; [apply Rmult_le_pos|]; lra).
    assert (0 <= 2 * Sm * ((kap + 3 * mu) * (Dd + (kap + mu) * Sm) + (kap + mu) * (kap + mu) * Sm)) by (apply Rmult_le_pos; lra).
    lra.
  Qed.

  Notation evs c tr := (trace_ok Rops o pb (@vm P) itol0 ones c tr).
  Lemma evs_app c l tr : evs c (l ++ tr) -> evs (fold_left upd l c) tr.
  Proof.
    intros H pre g post E. specialize (H (l ++ pre) g post). rewrite fold_left_app in H. apply H.
    rewrite E, app_assoc. reflexivity.
  Qed.

  (* what one completed subproblem does *)
  Lemma one_step c prev tol Ek l x' tr : Forall is_inner l ->
    evs c (GSub prev tol Ek (c_x c) :: l ++ GProject x' :: tr) -> 
    let c1 := fold_left upd l (upd c (GSub prev tol Ek (c_x c))) in
    let E := inner_error P o (c_x c1) (c_center c1) in
    c_center c1 = c_x c /\ @vm P (c_x c) /\ @vm P (c_x c1) /\ x' = proj_duals Rops (c_x c1) /\ @vm P x' /\
    pdist P (pt_of x') s <= pdist P (pt_of (c_x c)) s + (kap + mu) * E /\
    pdist P (pt_of x') s * pdist P (pt_of x') s + pdist P (pt_of x') (pt_of (c_x c)) * pdist P (pt_of x') (pt_of (c_x c)) <=
      pdist P (pt_of (c_x c)) s * pdist P (pt_of (c_x c)) s +
      2 * E * ((kap + 3 * mu) * pdist P (pt_of (c_x c)) s + (kap + mu) * (kap + mu) * E).
  Proof.
    intros Hl H. cbv zeta. set (c0 := upd c _). set (c1 := fold_left upd l c0).
    assert (V : @vm P (c_x c)).
    { pose proof (H [] (GSub prev tol Ek (c_x c)) _ eq_refl) as K. cbn [ev_ok fold_left] in K. apply K. }
    assert (H2 := evs_app c [GSub prev tol Ek (c_x c)] _ H). cbn [fold_left] in H2. fold c0 in H2.
    assert (H3 := evs_app c0 l _ H2). fold c1 in H3.
    pose proof (H3 [] (GProject x') tr eq_refl) as K. cbn [ev_ok fold_left] in K. destruct K as (K1 & K2 & K3).
    destruct (inner_events l Hl c0) as (I1 & _). fold c1 in I1.
    assert (I2 : c_center c1 = c_x c) by (rewrite I1; reflexivity).
    assert (V1 : @vm P (c_x c1)).
    { rewrite K1 in K2. exact (vm_unproj _ K2). }
    split; [exact I2|]. split; [exact V|]. split; [exact V1|]. split; [exact K1|]. split; [exact K2|].
    destruct (inexact_step P Cv al sg (pt_of (c_x c1)) (pt_of (c_x c)) Ha Hs s KS) as [B1 B2].
    rewrite K1, !(dist_proj _ _ (proj1 V1)), I2. split; [exact B1|exact B2].
  Qed.

  (* the whole run *)
  Lemma run_bounds fin xk tr : run_shape fin xk tr -> forall c, c_x c = xk -> @vm P xk -> evs c tr ->
    let D0 := pdist P (pt_of xk) s in let S := total_error P o c tr in
    square_steps P tr <= sq_bound D0 S /\
    (forall pre post prev tol Ek xb, tr = pre ++ GSub prev tol Ek xb :: post ->
       pdist P (pt_of xb) s <= D0 + (kap + mu) * S) /\
    (forall pre post y, tr = pre ++ GProject y :: post -> pdist P (pt_of y) s <= D0 + (kap + mu) * S) /\
    (let cf := fold_left upd tr c in
     (tr = [] -> c_x cf = xk) /\
     (tr <> [] -> pdist P (pt_of (c_center cf)) s <= D0 + (kap + mu) * S) /\
     (fin <> None -> pdist P (pt_of (c_x cf)) s <= D0 + (kap + mu) * S)).
  Proof.
    assert (PK := kappa_pos P al sg Ha Hs). assert (PM := mu_pos al Ha).
    assert (PB : 0 < kap + mu) by lra.
    assert (NOSUB : forall (l : list (ghost R)), Forall is_inner l -> forall pre g post, l = pre ++ g :: post -> is_inner g).
    { intros l Hl pre g post E. rewrite E in Hl. apply Forall_app in Hl. destruct Hl as [_ Hl]. inversion Hl; assumption. }
    induction 1 as [xk|xk prev tol Ek l HF Hl|xk prev tol Ek l x1 HF Hl|xk prev tol Ek l x1 dx tr Hl Htr IH];
      intros c Hc Vk H; cbv zeta.
    - cbn [square_steps total_error fold_left]. assert (K := pdist_pos P (pt_of xk) s).
      split; [unfold PropsProx.sq_bound; cbv zeta; assert (0 <= pdist P (pt_of xk) s * pdist P (pt_of xk) s) by apply Rle_0_sqr; lra|].
      split; [intros [|] ? ? ? ? ? ?; discriminate|]. split; [intros [|] ? ? ?; discriminate|].
      split; [intros; exact Hc|]. split; [intros N; contradiction|]. intros _. rewrite Hc. lra.
    - cbn [square_steps total_error fold_left].
      set (c0 := upd c (GSub prev tol Ek xk)).
      destruct (inner_events l Hl c0) as (I1 & _ & I3 & I4 & _). specialize (I3 []). specialize (I4 []).
      rewrite app_nil_r in I3, I4. rewrite I3, I4, I1. cbn [square_steps total_error].
      assert (K := pdist_pos P (pt_of xk) s).
      split; [unfold PropsProx.sq_bound; cbv zeta; assert (0 <= pdist P (pt_of xk) s * pdist P (pt_of xk) s) by apply Rle_0_sqr; lra|].
      split.
      { intros [|g pre] post prev' tol' Ek' xb E; cbn [app] in E; injection E as E1 E2.
        - subst. lra.
        - apply (NOSUB _ Hl) in E2. contradiction. }
      split.
      { intros [|g pre] post y E; cbn [app] in E; [discriminate|]. injection E as _ E2. apply (NOSUB _ Hl) in E2. contradiction. }
      split; [discriminate|]. split; [intros _; cbn; lra|]. intro X; contradiction.
    - subst xk. destruct (one_step c prev tol Ek l x1 [] Hl H) as (O1 & O2 & O3 & O4 & O5 & O6 & O7).
      cbn [square_steps total_error fold_left].
      set (c0 := upd c (GSub prev tol Ek (c_x c))) in *.
      destruct (inner_events l Hl c0) as (I1 & _ & I3 & I4 & _). rewrite I3, I4. cbn [square_steps total_error].
      rewrite fold_left_app. cbn [fold_left].
      set (c1 := fold_left upd l c0) in *. set (E := inner_error P o (c_x c1) (c_center c1)) in *.
      assert (PE : 0 <= E) by apply nrm_pos. assert (K := pdist_pos P (pt_of (c_x c)) s).
      assert (0 <= (kap + mu) * E) by (apply Rmult_le_pos; lra).
      split; [assert (Q := sq_bound_mono (pdist P (pt_of (c_x c)) s) (0 + (E + 0)) K ltac:(lra));
              assert (0 <= pdist P (pt_of (c_x c)) s * pdist P (pt_of (c_x c)) s) by apply Rle_0_sqr; lra|].
      replace (0 + (E + 0)) with E by ring.
      split.
      { intros [|g pre] post prev' tol' Ek' xb EQ; cbn [app] in EQ; injection EQ as E1 E2.
        - subst. lra.
        - exfalso. clear - E2 Hl. revert pre E2. induction Hl as [|a l Ha Hl IH]; intros pre E2; cbn [app] in E2.
          + destruct pre as [|b pre]; [discriminate|]. injection E2 as _ E2. destruct pre; discriminate.
          + destruct pre as [|b pre]; injection E2 as E1 E2; [subst a; contradiction|]. eapply IH; exact E2. }
      split.
      { intros [|g pre] post y EQ; cbn [app] in EQ; [discriminate|]. injection EQ as _ E2.
        assert (y = x1); [|subst y; lra]. clear - E2 Hl. revert pre E2.
        induction Hl as [|a l Ha Hl IH]; intros pre E2; cbn [app] in E2.
        - destruct pre as [|b pre]; [injection E2; congruence|]. injection E2 as _ E2. destruct pre; discriminate.
        - destruct pre as [|b pre]; injection E2 as E1 E2; [subst a; contradiction|]. eapply IH; exact E2. }
      split; [discriminate|]. split; intros _; cbn [upd c_center c_x]; [rewrite O1|]; lra.
    - subst xk. destruct (one_step c prev tol Ek l x1 (GProx dx :: tr) Hl H) as (O1 & O2 & O3 & O4 & O5 & O6 & O7).
      cbn [square_steps total_error fold_left].
      set (c0 := upd c (GSub prev tol Ek (c_x c))) in *.
      destruct (inner_events l Hl c0) as (I1 & _ & I3 & I4 & _). rewrite I3, I4. cbn [square_steps total_error].
      rewrite fold_left_app. cbn [fold_left].
      set (c1 := fold_left upd l c0) in *. set (E := inner_error P o (c_x c1) (c_center c1)) in *.
      assert (PE : 0 <= E) by apply nrm_pos. assert (K := pdist_pos P (pt_of (c_x c)) s).
      assert (H2 := evs_app c [GSub prev tol Ek (c_x c)] _ H). cbn [fold_left] in H2. fold c0 in H2.
      assert (H3 := evs_app c0 l _ H2). fold c1 in H3.
      pose proof (H3 [GProject x1] (GProx dx) tr eq_refl) as X. cbn [ev_ok fold_left] in X. destruct X as [X1 X2].
      assert (H4 := evs_app c1 [GProject x1; GProx dx] tr H3). cbn [fold_left] in H4.
      set (c2 := upd (upd c1 (GProject x1)) (GProx dx)) in *.
      assert (C2 : c_x c2 = x1) by reflexivity.
      destruct (IH c2 C2 O5 H4) as (J1 & J2 & J3 & J4 & J5 & J6).
      assert (ND : nrm P (pt_of dx) = pdist P (pt_of x1) (pt_of (c_x c))).
      { rewrite X1. cbn [upd c_center c_x]. rewrite O1. apply step_norm; assumption. }
      set (S2 := total_error P o c2 tr) in *. assert (PS : 0 <= S2) by apply total_error_pos.
      set (D0 := pdist P (pt_of (c_x c)) s) in *. set (D1 := pdist P (pt_of x1) s) in *.
      assert (PD1 : 0 <= D1) by apply pdist_pos.
      rewrite ND. replace (0 + (E + (0 + S2))) with (E + S2) by ring.
      assert (M1 : 0 <= (kap + mu) * E) by (apply Rmult_le_pos; lra).
      assert (M2 : 0 <= (kap + mu) * S2) by (apply Rmult_le_pos; lra).
      rewrite Rmult_plus_distr_l.
      split.
      { assert (CB := compose_bounds D0 E D1 S2 _ K PE PD1 PS O6 O7 _ J1). lra. }
      split.
      { intros [|g pre] post prev' tol' Ek' xb EQ; cbn [app] in EQ; injection EQ as E1 E2.
        - subst. unfold D0. lra.
        - assert (exists pre2, tr = pre2 ++ GSub prev' tol' Ek' xb :: post) as [pre2 E3].
          { clear - E2 Hl. revert pre E2. induction Hl as [|a l Ha Hl IH]; intros pre E2; cbn [app] in E2.
            + destruct pre as [|b pre]; [discriminate|]. injection E2 as _ E2. destruct pre as [|b' pre]; [discriminate|].
              injection E2 as _ E2. exists pre. exact E2.
            + destruct pre as [|b pre]; injection E2 as E1 E2; [subst a; contradiction|]. eapply IH; exact E2. }
          specialize (J2 _ _ _ _ _ _ E3). lra. }
      split.
      { intros [|g pre] post y EQ; cbn [app] in EQ; [discriminate|]. injection EQ as _ E2.
        assert (y = x1 \/ exists pre2, tr = pre2 ++ GProject y :: post) as [->|[pre2 E3]].
        { clear - E2 Hl. revert pre E2. induction Hl as [|a l Ha Hl IH]; intros pre E2; cbn [app] in E2.
          + destruct pre as [|b pre]; [left; injection E2; congruence|]. injection E2 as _ E2. destruct pre as [|b' pre]; [discriminate|].
            injection E2 as _ E2. right. exists pre. exact E2.
          + destruct pre as [|b pre]; injection E2 as E1 E2; [subst a; contradiction|]. eapply IH; exact E2. }
        - unfold D1 in O6. lra.
        - specialize (J3 _ _ _ E3). lra. }
      split; [discriminate|]. split; [|intro X; specialize (J6 X); lra]. intros _. destruct tr as [|g tr].
      + cbn [fold_left]. cbn [upd c_center c2]. unfold c2; cbn [upd c_center]. rewrite O1. unfold D0 in *. lra.
      + specialize (J5 ltac:(discriminate)). lra.
  Qed.

  (* every completed step that was followed by another subproblem was longer than stall_tol *)
  Lemma run_stall fin xk tr : 0 <= p_stall_tol o -> run_shape fin xk tr -> forall c, c_x c = xk -> evs c tr ->
    p_stall_tol o * p_stall_tol o * INR (count is_prox tr) <= square_steps P tr + p_stall_tol o * p_stall_tol o /\
    forall dx, tr <> [] -> c_step c = Some dx -> @vm P dx -> p_stall_tol o <= nrm P (pt_of dx).
  Proof.
    intro PT. set (t := p_stall_tol o) in *.
    assert (VN : forall dx, @vm P dx -> var_norm Rops dx = nrm P (pt_of dx)).
    { intros dx [(V1 & V2 & V3 & V4) _]. unfold var_norm, nrm, ip, pt_of. cbn [o_sqrt o_add o_mul Rops pz pl pv].
      rewrite !norm_sq. unfold vec in *. rewrite V1, V2, V3. reflexivity. }
    assert (ST : forall c prev tol Ek xb rest dx, evs c (GSub prev tol Ek xb :: rest) -> c_step c = Some dx -> @vm P dx ->
             t <= nrm P (pt_of dx)).
    { intros c prev tol Ek xb rest dx H HS V. pose proof (H [] _ _ eq_refl) as K. cbn [ev_ok fold_left] in K.
      destruct K as (_ & _ & _ & _ & _ & K & _). unfold step_or in K. rewrite HS in K. apply Rleb_false in K.
      rewrite VN in K by exact V. unfold t. lra. }
    assert (PTT : 0 <= t * t) by apply Rle_0_sqr.
    induction 1 as [xk|xk prev tol Ek l HF Hl|xk prev tol Ek l x1 HF Hl|xk prev tol Ek l x1 dx tr Hl Htr IH];
      intros c Hc H.
    - cbn. split; [lra|]. intros dx N; contradiction.
    - split; [|intros dx _ HS V; eapply ST; eassumption].
      destruct (inner_events l Hl c) as (_ & _ & _ & I4 & I5). specialize (I4 []). specialize (I5 []). rewrite app_nil_r in I4, I5.
      rewrite count_cons. cbn [square_steps is_prox]. rewrite I4, I5. cbn. lra.
    - split; [|intros dx _ HS V; eapply ST; eassumption].
      destruct (inner_events l Hl c) as (_ & _ & _ & I4 & I5).
      rewrite count_cons. cbn [square_steps is_prox]. rewrite I4, I5. cbn. lra.
    - split; [|intros dx' _ HS V; eapply ST; eassumption].
      destruct (inner_events l Hl c) as (_ & _ & _ & I4 & I5).
      rewrite count_cons. cbn [square_steps is_prox]. rewrite I4, I5, !count_cons. cbn [square_steps is_prox].
      set (c0 := upd c (GSub prev tol Ek xk)).
      assert (H2 := evs_app c [GSub prev tol Ek xk] _ H). cbn [fold_left] in H2. fold c0 in H2.
      assert (H3 := evs_app c0 l _ H2). set (c1 := fold_left upd l c0) in *.
      pose proof (H3 [GProject x1] (GProx dx) tr eq_refl) as X. cbn [ev_ok fold_left] in X. destruct X as [_ VX].
      assert (H4 := evs_app c1 [GProject x1; GProx dx] tr H3). cbn [fold_left] in H4.
      set (c2 := upd (upd c1 (GProject x1)) (GProx dx)) in *.
      destruct (IH c2 eq_refl H4) as [J1 J2].
      set (N := nrm P (pt_of dx)) in *. assert (PN : 0 <= N * N) by apply Rle_0_sqr.
      change (0 + (0 + (1 + count is_prox tr)))%nat with (S (count is_prox tr)). rewrite S_INR.
      destruct tr as [|g tr].
      + cbn [square_steps] in *. rewrite count_nil in *. cbn [INR] in *. lra.
      + specialize (J2 dx ltac:(discriminate) eq_refl VX). fold N in J2.
        assert (t * t <= N * N) by (apply Rmult_le_compat; lra). lra.
  Qed.

  (* subproblems that met no iteration limit were left with a residual under their tolerance *)
  Notation mn := (p_inner_tol_min o). Notation dl := (p_delta o). Notation tolof := (tol_of itol0).
  Lemma small_error c y : ev_ok Rops o pb (@vm P) itol0 ones c (GProject y) -> @vm P (c_center c) ->
    (length (c_merits c) < Z.to_nat (p_max_inner o))%nat -> (c_newton c < p_max_newton o)%Z ->
    exists tol, c_tol c = Some tol /\ inner_error P o (c_x c) (c_center c) <= Rmax tol mn.
  Proof.
    intros K VB H1 H2. cbn [ev_ok] in K. destruct K as (K1 & K2 & [K3|[_ [K3|(tol & K3 & K4)]]]).
    - unfold vec in *. lia.
    - lia.
    - exists tol. split; [exact K3|].
      assert (V : @vm P (c_x c)).
      { rewrite K1 in K2. exact (vm_unproj _ K2). }
      rewrite <- error_is by (assumption || apply VB). unfold inner_stop in K4. apply orb_prop in K4.
      destruct K4 as [K4|K4].
      + apply andb_prop in K4. destruct K4 as [K4 _]. apply Rleb_true in K4.
        eapply Rle_trans; [exact K4|apply Rmax_l].
      + apply Rleb_true in K4. eapply Rle_trans; [exact K4|apply Rmax_r].
  Qed.
  Lemma inner_keep (l : list (ghost R)) : Forall is_inner l -> forall c, c_tol (fold_left upd l c) = c_tol c.
  Proof.
    induction 1 as [|g l Hg Hl IH]; intro c; [reflexivity|]. cbn [fold_left]. rewrite IH.
    destruct g; try contradiction; reflexivity.
  Qed.
  Lemma run_error_sum fin xk tr : 0 < dl < 1 -> 0 <= mn -> run_shape fin xk tr -> forall c, c_x c = xk -> evs c tr ->
    (forall pre y post, tr = pre ++ GProject y :: post ->
       (length (c_merits (fold_left upd pre c)) < Z.to_nat (p_max_inner o))%nat /\
       (c_newton (fold_left upd pre c) < p_max_newton o)%Z) ->
    mn <= tolof c ->
    total_error P o c tr <= (tolof c - mn) * (dl / (1 - dl)) + INR (count is_sub tr) * mn.
  Proof.
    intros Hd Hm.
    assert (PQ : 0 < dl / (1 - dl)) by (apply Rdiv_lt_0_compat; lra).
    set (q := dl / (1 - dl)) in *. assert (Q1 : q = dl + dl * q) by (unfold q; field; lra).
    assert (TOL : forall c prev tol Ek xb rest, evs c (GSub prev tol Ek xb :: rest) -> mn <= tolof c ->
              mn <= tol /\ tol - mn <= dl * (tolof c - mn)).
    { intros c prev tol Ek xb rest H T. pose proof (H [] _ _ eq_refl) as K. cbn [ev_ok fold_left] in K.
      destruct K as (K1 & _ & _ & _ & _ & _ & _ & K8). unfold saturate in K8.
      destruct (o_ltb Rops Ek mn); [discriminate|]. injection K8 as K8. rewrite smax_R, smin_R in K8.
      cbn [o_mul Rops] in K8. rewrite <- K8, K1. set (t := tolof c) in *. 
      assert (dl * mn <= mn) by nra.
      unfold Rmax, Rmin. repeat match goal with |- context [Rle_dec ?a ?b] => destruct (Rle_dec a b) end; nra. }
    assert (NOP : forall (l : list (ghost R)), Forall is_inner l -> count is_sub l = 0%nat).
    { induction 1 as [|g l Hg Hl IH]; [reflexivity|]. rewrite count_cons, IH. destruct g; try contradiction; reflexivity. }
    induction 1 as [xk|xk prev tol Ek l HF Hl|xk prev tol Ek l x1 HF Hl|xk prev tol Ek l x1 dx tr Hl Htr IH];
      intros c Hc H LIM T.
    - cbn [total_error]. rewrite count_nil. cbn [INR].
      assert (0 <= (tolof c - mn) * q) by (apply Rmult_le_pos; lra). lra.
    - cbn [total_error]. rewrite count_cons. cbn [is_sub].
      destruct (inner_events l Hl (upd c (GSub prev tol Ek xk))) as (_ & _ & I3 & _). specialize (I3 []). rewrite app_nil_r in I3.
      rewrite I3, (NOP _ Hl). cbn [total_error].
      assert (0 <= (tolof c - mn) * q) by (apply Rmult_le_pos; lra). cbn [Nat.add INR]. lra.
    - destruct (TOL _ _ _ _ _ _ H T) as [T1 T2].
      cbn [total_error]. rewrite count_cons, count_app, (NOP _ Hl), count_cons, count_nil. cbn [is_sub].
      set (c0 := upd c (GSub prev tol Ek xk)).
      destruct (inner_events l Hl c0) as (I1 & _ & I3 & _). rewrite I3. cbn [total_error].
      assert (H2 := evs_app c [GSub prev tol Ek xk] _ H). cbn [fold_left] in H2. fold c0 in H2.
      assert (H3 := evs_app c0 l _ H2). 
      destruct (LIM (GSub prev tol Ek xk :: l) x1 [] eq_refl) as [L1 L2]. cbn [fold_left] in L1, L2. fold c0 in L1, L2.
      set (c1 := fold_left upd l c0) in *.
      pose proof (H [] _ _ eq_refl) as K0. cbn [ev_ok fold_left] in K0.
      destruct (small_error c1 x1) as (tol' & E1 & E2); [exact (H3 [] _ _ eq_refl)|rewrite I1; apply K0|exact L1|exact L2|].
      unfold c1 in E1. rewrite inner_keep in E1 by exact Hl. injection E1 as <-.
      rewrite Rmax_left in E2 by exact T1. cbn [Nat.add INR].
      assert (0 <= (tolof c - mn) * (dl * q)) by (apply Rmult_le_pos; [lra|apply Rmult_le_pos; lra]).
      rewrite Q1. fold c1 in E2 |- *. lra.
    - destruct (TOL _ _ _ _ _ _ H T) as [T1 T2].
      cbn [total_error]. rewrite count_cons, count_app, (NOP _ Hl), !count_cons. cbn [is_sub].
      set (c0 := upd c (GSub prev tol Ek xk)).
      destruct (inner_events l Hl c0) as (I1 & _ & I3 & _). rewrite I3. cbn [total_error].
      assert (H2 := evs_app c [GSub prev tol Ek xk] _ H). cbn [fold_left] in H2. fold c0 in H2.
      assert (H3 := evs_app c0 l _ H2). 
      destruct (LIM (GSub prev tol Ek xk :: l) x1 _ eq_refl) as [L1 L2]. cbn [fold_left] in L1, L2. fold c0 in L1, L2.
      assert (LIM2 : forall pre y post, tr = pre ++ GProject y :: post ->
        (length (c_merits (fold_left upd pre (upd (upd (fold_left upd l c0) (GProject x1)) (GProx dx)))) < Z.to_nat (p_max_inner o))%nat /\
        (c_newton (fold_left upd pre (upd (upd (fold_left upd l c0) (GProject x1)) (GProx dx))) < p_max_newton o)%Z).
      { intros pre y post EQ. 
        specialize (LIM (GSub prev tol Ek xk :: l ++ GProject x1 :: GProx dx :: pre) y post).
        cbn [fold_left] in LIM. rewrite fold_left_app in LIM. cbn [fold_left] in LIM. apply LIM.
        rewrite EQ. cbn [app]. rewrite <- app_assoc. reflexivity. }
      set (c1 := fold_left upd l c0) in *.
      pose proof (H [] _ _ eq_refl) as K0. cbn [ev_ok fold_left] in K0.
      destruct (small_error c1 x1) as (tol' & E1 & E2); [exact (H3 [] _ _ eq_refl)|rewrite I1; apply K0|exact L1|exact L2|].
      assert (E1' : c_tol c1 = Some tol) by (unfold c1; rewrite inner_keep by exact Hl; reflexivity).
      rewrite E1' in E1. injection E1 as <-.
      rewrite Rmax_left in E2 by exact T1. 
      assert (H4 := evs_app c1 [GProject x1; GProx dx] tr H3). cbn [fold_left] in H4.
      set (c2 := upd (upd c1 (GProject x1)) (GProx dx)) in *.
      assert (T3 : tolof c2 = tol) by (unfold c2, tol_of; cbn [upd c_tol]; rewrite E1'; reflexivity).
      specialize (IH c2 eq_refl H4 LIM2). rewrite T3 in IH. specialize (IH T1).
      rewrite (Nat.add_1_l (0 + (0 + (0 + count is_sub tr)))). cbn [Nat.add]. rewrite S_INR.
      assert (M : (tol - mn) * q <= dl * (tolof c - mn) * q) by (apply Rmult_le_compat_r; lra).
      rewrite Q1. fold c2. lra.
  Qed.
  Lemma centre_vm tr : forall c, @vm P (c_center c) -> evs c tr -> @vm P (c_center (fold_left upd tr c)).
  Proof.
    induction tr as [|g tr IH]; intros c V H; [exact V|]. cbn [fold_left]. apply IH.
    - pose proof (H [] g tr eq_refl) as K. cbn [fold_left] in K. destruct g; try exact V. cbn [ev_ok] in K. cbn [upd c_center]. apply K.
    - exact (evs_app c [g] tr H).
  Qed.
End Run.

Section Api.
  Context (LA : LinAlg R) (P : QP) (o : params R) (x : var R) (el : R) (r : solve_result R).
  Hypothesis call : solves LA P o x el r.
  Notation nz := (n_z P). Notation nl := (n_l P). Notation nv := (n_v P).
  Notation start := (start_at P x).
  Notation kap := (kappa_of P (p_alpha o) (p_sigma0 o)). Notation mu := (mu_of (p_alpha o)).

  Ltac open :=
    pose proof (solve_alpha _ _ _ _ _ _ call) as Ha; pose proof (solve_sigma _ _ _ _ _ _ call) as Hs;
    pose proof (solve_admissible _ _ _ _ _ _ call) as AD;
    destruct (solves_rcall _ _ _ _ _ _ call) as (D & DI & d & pinit & pst & stale & w & RC);
    pose proof (event_vm RC) as EV; rewrite (start_is RC) in EV;
    pose proof (vm_start RC) as VS; rewrite (start_is RC) in VS;
    pose proof (desc_shape Rops pinit pst stale w (rc_cd _ _ _ _ _ _ _ _ _ _ _ _ _ RC)) as SH; rewrite (start_is RC) in SH;
    pose proof (rmaster RC) as RM; cbv zeta in RM; rewrite (start_is RC) in RM.

  Lemma delta_in : 0 < p_delta o < 1 /\ 0 < p_inner_tol_min o /\ 0 < p_stall_tol o.
  Proof.
    pose proof (solve_admissible _ _ _ _ _ _ call) as AD.
    pose proof (between_R _ _ _ (ad_delta _ _ AD)) as K. pose proof (between_R _ _ _ (ad_itmin _ _ AD)) as K2.
    pose proof (ad_stall _ _ AD) as K3. apply Rleb_true in K3. revert K K2 K3. cbn. unfold Rdec; cbn. lra.
  Qed.

  (* ---------------------------------------------------------------- C52 *)
  (* One proximal step: y is the next iterate, xb the one before, u the last point of the inner
     loop, E the residual of the subproblem there. *)
  Theorem C52_proximal_step : forall pre y post, sr_trace r = pre ++ GProject y :: post ->
    let c := after start pre in let u := c_x c in let xb := c_center c in
    let E := inner_error P o u xb in
    y = mkVar (v_z u) (v_l u) (tab nv (fun k => Rmax (rg (v_v u) k) 0)) (v_y u) /\
    (* the residual is under the tolerance, unless an iteration limit stopped the inner loop *)
    (length (c_merits c) = Z.to_nat (p_max_inner o) \/ (p_max_newton o <= c_newton c)%Z \/
     exists tol, c_tol c = Some tol /\ E <= Rmax tol (p_inner_tol_min o)) /\
    (* the step brings the iterate closer to every solution s, up to a multiple of E *)
    (convex P -> forall s, KKT P (pz s) (pl s) (pv s) ->
     pdist P (pt_of y) s <= pdist P (pt_of xb) s + (kap + mu) * E /\
     pdist P (pt_of y) s * pdist P (pt_of y) s + pdist P (pt_of y) (pt_of xb) * pdist P (pt_of y) (pt_of xb) <=
       pdist P (pt_of xb) s * pdist P (pt_of xb) s +
       2 * E * ((kap + 3 * mu) * pdist P (pt_of xb) s + (kap + mu) * (kap + mu) * E)).
  Proof.
    intros pre y post ET. open. cbv zeta. pose proof (EV _ _ _ ET) as K.
    set (c := after start pre) in *.
    assert (VC : @vm P (c_center c)).
    { refine (centre_vm (P:=P) (o:=o) (x:=x) (DI:=DI) (d:=d) (pinit:=pinit) (pst:=pst) pre (start_ctx start) VS _). intros p g q E. apply EV with (q ++ GProject y :: post).
      rewrite ET, E, <- app_assoc. reflexivity. }
    pose proof K as K'. cbn [ev_ok] in K'. destruct K' as (K1 & K2 & K3).
    assert (V : @vm P (c_x c)).
    { rewrite K1 in K2. exact (vm_unproj _ K2). }
    split.
    { rewrite K1. unfold proj_duals. f_equal. destruct V as [(V1 & V2 & V3 & V4) _]. rewrite V3.
      apply tab_ext. intros k Hk. rewrite smax_R. reflexivity. }
    split.
    { destruct (Nat.lt_ge_cases (length (c_merits c)) (Z.to_nat (p_max_inner o))) as [L1|L1].
      - destruct (Z.lt_ge_cases (c_newton c) (p_max_newton o)) as [L2|L2].
        + right; right. exact (small_error RC c y K VC L1 L2).
        + right; left. exact L2.
      - destruct K3 as [K3|(_ & [K3|(tol & K3 & K4)])]; [left; exact K3|right; left; exact K3|].
        right; right. exists tol. split; [exact K3|].
        rewrite <- (error_is RC) by (assumption || apply VC). unfold inner_stop in K4. apply orb_prop in K4.
        destruct K4 as [K4|K4].
        + apply andb_prop in K4. destruct K4 as [K4 _]. apply Rleb_true in K4.
          eapply Rle_trans; [exact K4|apply Rmax_l].
        + apply Rleb_true in K4. eapply Rle_trans; [exact K4|apply Rmax_r]. }
    intros Cv s KS.
    destruct (inexact_step P Cv (p_alpha o) (p_sigma0 o) (pt_of (c_x c)) (pt_of (c_center c)) Ha Hs s KS) as [B1 B2].
    rewrite K1, !(dist_proj _ _ (proj1 V)). split; [exact B1|exact B2].
  Qed.

  (* All proximal iterates, and the point returned with SUCCESS or MAXITERATIONS, stay within a
     fixed distance of every solution. *)
  Theorem C52_iterates_bounded : convex P -> forall s, KKT P (pz s) (pl s) (pv s) ->
    let D0 := pdist P (pt_of x) s in let Sm := total_error P o (start_ctx start) (sr_trace r) in
    (forall pre post prev tol Ek xb, sr_trace r = pre ++ GSub prev tol Ek xb :: post ->
       pdist P (pt_of xb) s <= D0 + (kap + mu) * Sm) /\
    (forall pre post y, sr_trace r = pre ++ GProject y :: post -> pdist P (pt_of y) s <= D0 + (kap + mu) * Sm) /\
    (forall out, sr_out r = Ok out -> so_eflag out = SUCCESS \/ so_eflag out = MAXITERATIONS ->
       pdist P (pt_of (sr_x r)) s <= D0 + (kap + mu) * Sm).
  Proof.
    intros Cv s KS. open. cbv zeta.
    assert (SX : pt_of start = pt_of x) by reflexivity.
    destruct (run_bounds RC Ha Hs Cv s KS _ start _ SH (start_ctx start) eq_refl VS EV) as (_ & B2 & B3 & _ & B5 & B6).
    rewrite SX in B2, B3, B5, B6. split; [exact B2|]. split; [exact B3|].
    intros out E F. rewrite E in RM, B6. cbn [flag_out] in B6. specialize (B6 ltac:(discriminate)).
    change (fold_left upd (sr_trace r) (start_ctx start)) with (after start (sr_trace r)) in *.
    destruct RM as (_ & _ & X). cbn [exit_ok] in X.
    destruct X as (_ & _ & _ & [(_ & X & _)|[(_ & _ & _ & _ & _ & _ & xs & _ & _ & X)|[(_ & _ & X & _)|(X & _)]]]).
    - rewrite X. exact B6.
    - rewrite X. destruct (o_ltb _ _ _); [exact B6|].
      destruct (sr_trace r) as [|g t] eqn:ET; [|apply B5; discriminate].
      change (c_center (after start [])) with start. rewrite SX.
      assert (K := total_error_pos (P := P) (o := o) (@nil (ghost R)) (start_ctx start)). cbn [total_error] in *. lra.
    - rewrite X. exact B6.
    - destruct F as [F|F]; rewrite F in X; discriminate.
  Qed.

  (* what the residuals sum to when no iteration limit stops a subproblem: n is the number of
     subproblems *)
  Theorem C52_error_budget :
    (forall pre y post, sr_trace r = pre ++ GProject y :: post ->
       (length (c_merits (after start pre)) < Z.to_nat (p_max_inner o))%nat /\
       (c_newton (after start pre) < p_max_newton o)%Z) ->
    total_error P o (start_ctx start) (sr_trace r) <=
      p_inner_tol_max o * (p_delta o / (1 - p_delta o)) + INR (count is_sub (sr_trace r)) * p_inner_tol_min o.
  Proof.
    intro LIM. open. destruct delta_in as (D1 & D2 & D3).
    assert (TM : sr_trace r = [] \/ p_inner_tol_min o <= p_inner_tol_max o).
    { destruct (sr_out r) as [out|e|u]; [| |contradiction].
      - right. destruct RM as (RM & _). apply Rltb_false in RM. exact RM.
      - assert (X : sr_trace r = [] \/ o_ltb Rops (p_inner_tol_max o) (p_inner_tol_min o) = false).
        { destruct e; try (right; apply RM). destruct RM as [_ [[_ RM]|[RM _]]]; auto. }
        destruct X as [X|X]; [left; exact X|right; apply Rltb_false in X; exact X]. }
    destruct TM as [TM|TM].
    - rewrite TM. cbn [total_error]. rewrite count_nil. cbn [INR].
      pose proof (between_R _ _ _ (ad_itmax _ _ AD)) as K.
      assert (0 < p_inner_tol_max o) by (revert K; cbn; unfold Rdec; cbn; lra).
      assert (0 < p_delta o / (1 - p_delta o)) by (apply Rdiv_lt_0_compat; lra).
      assert (0 <= p_inner_tol_max o * (p_delta o / (1 - p_delta o))) by (apply Rmult_le_pos; lra). lra.
    - pose proof (run_error_sum RC _ start _ D1 (Rlt_le _ _ D2) SH (start_ctx start) eq_refl EV LIM) as K.
      unfold tol_of in K. cbn [start_ctx c_tol] in K. unfold itol0_of, sat in K. rewrite smax_R, smin_R in K.
      set (E0 := rsd_norm _ _) in K. specialize (K (Rmax_r _ _)).
      eapply Rle_trans; [exact K|]. apply Rplus_le_compat_r. apply Rmult_le_compat_r.
      + apply Rlt_le, Rdiv_lt_0_compat; lra.
      + assert (Rmax (Rmin E0 (p_inner_tol_max o)) (p_inner_tol_min o) <= p_inner_tol_max o).
        { apply Rmax_lub; [apply Rmin_r|exact TM]. }
        lra.
  Qed.

  (* ---------------------------------------------------------------- C53 *)
  (* The proximal steps are square summable, with a bound that depends only on the distance from
     the guess to a solution and on the residuals left in the subproblems; so a run on a solvable
     convex problem ends by the proximal limit only if that limit is small. *)
  Theorem C53_square_summable : convex P -> forall s, KKT P (pz s) (pl s) (pv s) ->
    square_steps P (sr_trace r) <=
      sq_bound P o (pdist P (pt_of x) s) (total_error P o (start_ctx start) (sr_trace r)).
  Proof.
    intros Cv s KS. open.
    exact (proj1 (run_bounds RC Ha Hs Cv s KS _ start _ SH (start_ctx start) eq_refl VS EV)).
  Qed.
  Theorem C53_prox_limit : convex P -> forall s, KKT P (pz s) (pl s) (pv s) ->
    forall out, sr_out r = Ok out -> 
    p_stall_tol o * p_stall_tol o * (IZR (so_prox out) - 1) <=
      sq_bound P o (pdist P (pt_of x) s) (total_error P o (start_ctx start) (sr_trace r)).
  Proof.
    intros Cv s KS out E. assert (B := C53_square_summable Cv s KS). open. destruct delta_in as (_ & _ & D3).
    destruct (run_stall (P:=P) (o:=o) (x:=x) (DI:=DI) (d:=d) (pinit:=pinit) (pst:=pst) _ start _ (Rlt_le _ _ D3) SH (start_ctx start) eq_refl EV) as [K _].
    assert (CT : forall tr (c : ctx R), c_prox (fold_left upd tr c) = (c_prox c + Z.of_nat (count is_prox tr))%Z).
    { induction tr as [|g tr IH]; intro c; [rewrite count_nil; cbn [fold_left]; lia|]. cbn [fold_left]. rewrite IH, count_cons.
      destruct g; cbn [upd c_prox is_prox]; lia. }
    rewrite E in RM. destruct RM as (_ & _ & X). cbn [exit_ok] in X. destruct X as (_ & _ & X & _).
    unfold after in X. rewrite CT in X. cbn [start_ctx c_prox] in X.
    assert (LE : IZR (so_prox out) <= INR (count is_prox (sr_trace r))).
    { rewrite INR_IZR_INZ. apply IZR_le. rewrite X. destruct (infeas _); lia. }
    assert (PT : 0 <= p_stall_tol o * p_stall_tol o) by apply Rle_0_sqr.
    assert (p_stall_tol o * p_stall_tol o * IZR (so_prox out) <= p_stall_tol o * p_stall_tol o * INR (count is_prox (sr_trace r)))
      by (apply Rmult_le_compat_l; assumption).
    lra.
  Qed.

  (* ---------------------------------------------------------------- C54 *)
  (* SUCCESS because of a small step, after at least one proximal step: E is the residual at which
     the last subproblem was left, and the natural residual of the returned point is small. *)
  Theorem C54_stalled_success : forall out, sr_out r = Ok out -> so_eflag out = SUCCESS ->
    (1 <= so_prox out)%Z -> solve_tolerance P o < so_residual out ->
    exists pre y dx, sr_trace r = pre ++ [GProject y; GProx dx] /\ sr_x r = y /\
      let c := after start pre in let E := inner_error P o (c_x c) (c_center c) in
      let bound := (1 + mu * (fro P + 2 + p_sigma0 o)) * E + p_sigma0 o * p_stall_tol o in
      (forall i, (i < nz)%nat -> Rabs (pz (natural P (pt_of (sr_x r))) i) <= bound) /\
      (forall k, (k < nl)%nat -> Rabs (pl (natural P (pt_of (sr_x r))) k) <= bound) /\
      (forall k, (k < nv)%nat -> Rabs (pv (natural P (pt_of (sr_x r))) k) <= bound).
  Proof.
    intros out E F P1 LT. 
    destruct (C29_success_tolerance call out E F) as [T|T]; [lra|].
    open. rewrite E in SH. cbn [flag_out] in SH. rewrite F in SH.
    rewrite E in RM. destruct RM as (_ & _ & X). cbn [exit_ok] in X.
    destruct X as (_ & _ & XP & [(_ & X & _)|[(F' & _)|[(F' & _)|(F' & _)]]]); try (rewrite F in F'; discriminate).
    rewrite F in XP. cbn [infeas] in XP.
    assert (LAST : forall xk tr, run_shape (Some SUCCESS) xk tr -> tr = [] \/ exists pre y dx, tr = pre ++ [@GProject R y; GProx dx]).
    { clear. induction 1 as [xk|xk prev tol Ek l HF Hl|xk prev tol Ek l x1 HF Hl|xk prev tol Ek l x1 dx tr Hl Htr IH]; try discriminate.
      - left; reflexivity.
      - right. destruct IH as [->|(pre & y & dx' & ->)].
        + exists (GSub prev tol Ek xk :: l), x1, dx. reflexivity.
        + exists (GSub prev tol Ek xk :: l ++ GProject x1 :: GProx dx :: pre), y, dx'. cbn [app]. rewrite <- app_assoc. reflexivity. }
    destruct (LAST _ _ SH) as [ET|(pre & y & dx & ET)].
    { rewrite ET in XP. cbn in XP. lia. }
    exists pre, y, dx. split; [exact ET|]. 
    rewrite ET in X, T. unfold after in X, T. rewrite fold_left_app in X, T. cbn [fold_left upd c_x c_step] in X, T.
    fold (after start pre) in *. split; [exact X|]. cbv zeta.
    set (c := after start pre) in *.
    assert (VC : @vm P (c_center c)).
    { refine (centre_vm (P:=P) (o:=o) (x:=x) (DI:=DI) (d:=d) (pinit:=pinit) (pst:=pst) pre (start_ctx start) VS _).
      intros p g q EQ. apply EV with (q ++ [GProject y; GProx dx]). rewrite ET, EQ, <- app_assoc. reflexivity. }
    pose proof (EV _ _ _ ET) as K. fold c in K. cbn [ev_ok] in K. destruct K as (K1 & K2 & _).
    pose proof (EV (pre ++ [GProject y]) (GProx dx) []) as K3. rewrite <- app_assoc in K3. specialize (K3 ET).
    unfold after in K3. rewrite fold_left_app in K3. fold (after start pre) in K3. fold c in K3. 
    cbn [fold_left ev_ok upd c_center c_x] in K3. destruct K3 as [K3 K4].
    assert (V : @vm P (c_x c)).
    { rewrite K1 in K2. exact (vm_unproj _ K2). }
    assert (ND : var_norm Rops dx = pdist P (clamp_duals (pt_of (c_x c))) (pt_of (c_center c))).
    { assert (VN : var_norm Rops dx = nrm P (pt_of dx)).
      { destruct K4 as [(V1 & V2 & V3 & V4) _]. unfold var_norm, nrm, ip, pt_of. cbn [o_sqrt o_add o_mul Rops pz pl pv].
        rewrite !norm_sq. unfold vec in *. rewrite V1, V2, V3. reflexivity. }
      rewrite VN, K3, (step_norm RC) by assumption. rewrite K1. apply dist_proj. apply V. }
    rewrite ND in T.
    destruct (step_natural P (p_alpha o) (p_sigma0 o) (pt_of (c_x c)) (pt_of (c_center c)) Ha Hs) as (N1 & N2 & N3).
    set (B0 := (1 + mu * (fro P + 2 + p_sigma0 o)) * inner_error P o (c_x c) (c_center c)) in *.
    change (nrm P (sub_at P (p_alpha o) (p_sigma0 o) (pt_of (c_x c)) (pt_of (c_center c)))) with
      (inner_error P o (c_x c) (c_center c)) in N1, N2, N3. fold B0 in N1, N2, N3.
    set (q := pdist P _ _) in *.
    assert (QQ : p_sigma0 o * q <= p_sigma0 o * p_stall_tol o) by (apply Rmult_le_compat_l; lra).
    rewrite X, K1.
    split; [|split].
    - intros i Hi. eapply Rle_trans; [|eapply Rle_trans; [exact (N1 i Hi)|lra]]. right. f_equal.
      unfold natural, clamp_duals, pt_of, lagr; cbn [pz pl pv]. f_equal.
      unfold ttimes. apply rsum_ext. intros k Hk. rewrite (proj_pt _ k (proj1 V) Hk). reflexivity.
    - intros k Hk. eapply Rle_trans; [|eapply Rle_trans; [exact (N2 k Hk)|lra]]. right. reflexivity.
    - intros k Hk. eapply Rle_trans; [|eapply Rle_trans; [exact (N3 k Hk)|lra]]. right.
      unfold natural, clamp_duals, pt_of; cbn [pz pl pv]. rewrite (proj_pt _ k (proj1 V) Hk). reflexivity.
  Qed.
End Api.
Print Assumptions C52_proximal_step.
Print Assumptions C52_iterates_bounded.
Print Assumptions C52_error_budget.
Print Assumptions C53_prox_limit.
Print Assumptions C54_stalled_success.
