(* C56, C57: convergence of the proximal iteration on convex problems that have a solution, in exact
   arithmetic. *)
From Verif Require Export PropsProgress.
Local Open Scope R_scope.

(* ---------- specification ---------- *)
(* the factor of the subproblem residual E in the bound of C54 *)
Definition left_factor (P : QP) (o : params R) : R := 1 + mu_of (p_alpha o) * (fro P + 2 + p_sigma0 o).
(* all iterates are this close to the solution when the guess is at distance Dd and the subproblem
   residuals sum to Sm (C52) *)
Definition radius (P : QP) (o : params R) (Dd Sm : R) : R :=
  Dd + (kappa_of P (p_alpha o) (p_sigma0 o) + mu_of (p_alpha o)) * Sm.
(* bound of the margins and multipliers of the iterates; bs bounds those of the solution *)
Definition entry_bound (P : QP) (o : params R) (bs Dd Sm : R) : R := bs + (1 + fro P) * radius P o Dd Sm.
(* from entries of the natural residual to the norm of the penalised one, relative to the tolerance *)
Definition weight (P : QP) (o : params R) (bs Dd Sm : R) : R :=
  (1 + entry_bound P o bs Dd Sm) * sqrt (INR (n_z P + n_l P + n_v P)).
(* the number of proximal subproblems a run can need *)
Definition prox_needed (P : QP) (o : params R) (bs Dd Sm : R) : R :=
  let W := weight P o bs Dd Sm / solve_tolerance P o in
  1 + 2 * left_factor P o * W * Sm + (2 * p_sigma0 o * W) * (2 * p_sigma0 o * W) * sq_bound P o Dd Sm.
Definition bounded_solution (P : QP) (bs : R) (s : pt) : Prop :=
  KKT P (pz s) (pl s) (pv s) /\ 0 <= bs /\ forall k, (k < n_v P)%nat -> margin P (pz s) k <= bs /\ pv s k <= bs.

(* ---------- mathematics ---------- *)
Section Math.
  Context (P : QP).
  Notation nz := (n_z P). Notation nl := (n_l P). Notation nv := (n_v P).
  Lemma row_bound k (w : pt) : (k < nv)%nat -> Rabs (times nz (cA P) (pz w) k) <= fro P * nrm P w.
  Proof.
    intro Hk. apply abs_le_sq; [apply Rmult_le_pos; [apply fro_pos|apply nrm_pos]|].
    replace (fro P * nrm P w * (fro P * nrm P w)) with (fro P * fro P * (nrm P w * nrm P w)) by ring.
    rewrite nrm_sq. unfold fro. rewrite sqrt_sqrt.
    2:{ apply rsum_nonneg; intros; apply rsum_nonneg; intros; apply Rle_0_sqr. }
    unfold times. eapply Rle_trans; [apply (cs_sum nz (fun i => cA P k i) (pz w))|].
    apply Rmult_le_compat.
    - apply rsum_nonneg; intros; apply Rle_0_sqr.
    - apply rsum_nonneg; intros; apply Rle_0_sqr.
    - exact (rsum_term_le nv (fun k => rsum nz (fun i => cA P k i * cA P k i)) k Hk
               (fun j _ => rsum_nonneg nz _ (fun i _ => Rle_0_sqr _))).
    - unfold ip. assert (0 <= rsum nl (fun i => pl w i * pl w i)) by (apply rsum_nonneg; intros; apply Rle_0_sqr).
      assert (0 <= rsum nv (fun i => pv w i * pv w i)) by (apply rsum_nonneg; intros; apply Rle_0_sqr). lra.
  Qed.
  Lemma margin_near u s k : (k < nv)%nat -> margin P (pz u) k <= margin P (pz s) k + fro P * pdist P u s.
  Proof.
    intro Hk. assert (K := row_bound k (pminus u s) Hk). fold (pdist P u s) in K. unfold margin.
    assert (X : times nz (cA P) (pz (pminus u s)) k = times nz (cA P) (pz u) k - times nz (cA P) (pz s) k).
    { unfold times, pminus; cbn [pz]. rewrite <- rsum_sub. apply rsum_ext; intros; ring. }
    rewrite X in K. assert (K2 := Rle_abs (- (times nz (cA P) (pz u) k - times nz (cA P) (pz s) k))).
    rewrite Rabs_Ropp in K2. lra.
  Qed.
  Lemma dual_near u s k : (k < nv)%nat -> pv u k <= pv s k + pdist P u s.
  Proof.
    intro Hk. assert (K := entry_v P (pminus u s) k Hk). fold (pdist P u s) in K. cbn [pminus pv] in K.
    assert (K2 := Rle_abs (pv u k - pv s k)). lra.
  Qed.
  Lemma pnat_le al B a b : 0 < al < 1 -> 0 <= B -> a <= B -> b <= B -> Rabs (pnat al a b) <= (1 + B) * Rabs (Rmin a b).
  Proof.
    intros Ha HB.
    assert (W : forall a b, a <= b -> b <= B -> Rabs (pnat al a b) <= (1 + B) * Rabs (Rmin a b)).
    { clear a b. intros a b Hab Hb. unfold pnat. rewrite (Rmin_left a b Hab).
      destruct (Rle_dec 0 a) as [Pa|Na].
      - rewrite (Rmax_right 0 a), (Rmax_right 0 b) by lra.
        assert (0 <= (1 - al) * a) by (apply Rmult_le_pos; lra).
        assert (0 <= (1 - al) * a * b) by (apply Rmult_le_pos; lra).
        assert (0 <= al * a) by (apply Rmult_le_pos; lra).
        rewrite !Rabs_pos_eq by lra.
        assert ((1 - al) * a * b <= (1 - al) * a * B) by (apply Rmult_le_compat_l; lra).
        assert ((1 - al) * a * B <= a * B) by (apply Rmult_le_compat_r; [lra|]; nra).
        assert (al * a <= a) by nra. lra.
      - rewrite (Rmax_left 0 a) by lra. rewrite !Rmult_0_r, !Rmult_0_l, !Rplus_0_r, !Rabs_mult, (Rabs_pos_eq al) by lra.
        apply Rmult_le_compat_r; [apply Rabs_pos|lra]. }
    intros H1 H2. destruct (Rle_dec a b) as [H|H]; [apply W; assumption|].
    replace (pnat al a b) with (pnat al b a) by (unfold pnat; rewrite Rmin_comm; ring). rewrite Rmin_comm. apply W; lra.
  Qed.
  Lemma nrm_entries u b : 0 <= b -> (forall i, (i < nz)%nat -> Rabs (pz u i) <= b) ->
    (forall i, (i < nl)%nat -> Rabs (pl u i) <= b) -> (forall i, (i < nv)%nat -> Rabs (pv u i) <= b) ->
    nrm P u <= sqrt (INR (nz + nl + nv)) * b.
  Proof.
    intros Hb A B C. apply nrm_le_sq; [apply Rmult_le_pos; [apply sqrt_pos|exact Hb]|].
    replace (sqrt (INR (nz + nl + nv)) * b * (sqrt (INR (nz + nl + nv)) * b)) with
      (sqrt (INR (nz + nl + nv)) * sqrt (INR (nz + nl + nv)) * (b * b)) by ring.
    rewrite sqrt_sqrt by apply pos_INR. rewrite !plus_INR. unfold ip.
    assert (Q : forall n f, (forall i, (i < n)%nat -> Rabs (f i) <= b) -> rsum n (fun i => f i * f i) <= INR n * (b * b)).
    { intros n f H. rewrite <- (rsum_const n (b * b)). apply rsum_le. intros i Hi. specialize (H i Hi).
      rewrite <- (Rabs_pos_eq (f i * f i)) by apply Rle_0_sqr. rewrite Rabs_mult. apply Rmult_le_compat; auto using Rabs_pos. }
    assert (Q1 := Q nz _ A). assert (Q2 := Q nl _ B). assert (Q3 := Q nv _ C). lra.
  Qed.
  Lemma outer_le o u B b : 0 < p_alpha o < 1 -> 0 <= B -> 0 <= b ->
    (forall k, (k < nv)%nat -> margin P (pz u) k <= B /\ pv u k <= B) ->
    (forall i, (i < nz)%nat -> Rabs (pz (natural P u) i) <= b) ->
    (forall i, (i < nl)%nat -> Rabs (pl (natural P u) i) <= b) -> (forall i, (i < nv)%nat -> Rabs (pv (natural P u) i) <= b) ->
    outer_error P o u <= (1 + B) * sqrt (INR (nz + nl + nv)) * b.
  Proof.
    intros Ha HB Hb HU A1 A2 A3. unfold outer_error.
    replace ((1 + B) * sqrt (INR (nz + nl + nv)) * b) with (sqrt (INR (nz + nl + nv)) * ((1 + B) * b)) by ring.
    assert (K : forall a, Rabs a <= b -> Rabs a <= (1 + B) * b).
    { intros a H. assert (0 <= B * b) by (apply Rmult_le_pos; lra). lra. }
    apply nrm_entries; [apply Rmult_le_pos; lra| | |]; intros i Hi; cbn [pz pl pv].
    - apply K. exact (A1 i Hi).
    - apply K. exact (A2 i Hi).
    - destruct (HU i Hi) as [U1 U2]. eapply Rle_trans; [apply (pnat_le _ B _ _ Ha HB U1 U2)|].
      apply Rmult_le_compat_l; [lra|]. exact (A3 i Hi).
  Qed.
End Math.

(* ---------- runs ---------- *)
Section Run.
  Context {LA : LinAlg R} {P : QP} {o : params R} {x : var R} {el : R} {r : solve_result R}
          {D : Type} {DI : DataI R D} {d : D} {pinit : R -> R -> var R -> var R -> res bool}
          {pst : R -> R -> var R -> var R -> rsd R -> var R} {stale : rsd R} {w : ws R}.
  Hypothesis RC : rcall LA P o x el r D DI d pinit pst stale w.
  Notation nz := (n_z P). Notation nl := (n_l P). Notation nv := (n_v P).
  Notation pb := (prob_of Rops DI d nz nl nv pinit pst o).
  Notation itol0 := (itol0_of Rops DI d nz nl nv o x pinit pst).
  Notation ones := (pones Rops pb nz nl nv).
  Notation evs c tr := (trace_ok Rops o pb (@vm P) itol0 ones c tr).
  Notation al := (p_alpha o). Notation sg := (p_sigma0 o).
  Hypothesis Ha : 0 < al < 1.
  Hypothesis Hs : 0 < sg.

  Lemma pnr_is y : @vm P y -> rsd_norm Rops (pb_pnr pb y) = outer_error P o (pt_of y).
  Proof.
    intro V.
    pose proof (kkt_residual_R DI d P (rc_ex _ _ _ _ _ _ _ _ _ _ _ _ _ RC) (p_alpha o) y (proj1 V)) as K.
    rewrite (br_resid Rops _ _ _ _ _ _ _ _ _ _ _ _ _ (rc_cd _ _ _ _ _ _ _ _ _ _ _ _ _ RC)) in K by exact (proj1 V).
    apply (f_equal (fun q => match q with Ok a => a | _ => 0 end)) in K. cbv beta iota in K. rewrite K.
    unfold outer_error, nrm, ip, sumsq; cbn [pz pl pv pt_of]. apply (f_equal sqrt). apply (f_equal2 Rplus); [reflexivity|].
    apply rsum_ext. intros i Hi. unfold pnat_v. rewrite (proj2 V i Hi). reflexivity.
  Qed.
  Lemma combo_is : pb_combo pb = solve_tolerance P o.
  Proof. rewrite (br_tol Rops DI d nz nl nv o pinit pst). apply tol_is. exact (rc_ex _ _ _ _ _ _ _ _ _ _ _ _ _ RC). Qed.

  (* the residual of the result y of a subproblem *)
  Lemma step_outer c y B : ev_ok Rops o pb (@vm P) itol0 ones c (GProject y) -> 0 <= B ->
    (forall k, (k < nv)%nat -> margin P (rg (v_z y)) k <= B /\ rg (v_v y) k <= B) ->
    outer_error P o (pt_of y) <= (1 + B) * sqrt (INR (nz + nl + nv)) *
      (left_factor P o * inner_error P o (c_x c) (c_center c) + sg * pdist P (pt_of y) (pt_of (c_center c))).
  Proof.
    intros K HB HY. cbn [ev_ok] in K. destruct K as (K1 & K2 & _).
    assert (V : @vm P (c_x c)) by (rewrite K1 in K2; exact (vm_unproj _ K2)).
    destruct (step_natural P al sg (pt_of (c_x c)) (pt_of (c_center c)) Ha Hs) as (N1 & N2 & N3).
    change (nrm P (sub_at P al sg (pt_of (c_x c)) (pt_of (c_center c)))) with (inner_error P o (c_x c) (c_center c)) in N1, N2, N3.
    fold (left_factor P o) in N1, N2, N3.
    assert (DP : pdist P (pt_of y) (pt_of (c_center c)) = pdist P (clamp_duals (pt_of (c_x c))) (pt_of (c_center c)))
      by (rewrite K1; apply dist_proj; apply V).
    rewrite <- DP in N1, N2, N3.
    assert (LP : 0 <= left_factor P o).
    { unfold left_factor. assert (0 <= mu_of al * (fro P + 2 + sg)); [|lra].
      apply Rmult_le_pos; [left; apply mu_pos; exact Ha|assert (F := fro_pos P); lra]. }
    apply outer_le; try assumption.
    - assert (0 <= left_factor P o * inner_error P o (c_x c) (c_center c)) by (apply Rmult_le_pos; [exact LP|apply nrm_pos]).
      assert (0 <= sg * pdist P (pt_of y) (pt_of (c_center c))) by (apply Rmult_le_pos; [lra|apply nrm_pos]). lra.
    - intros i Hi. eapply Rle_trans; [|exact (N1 i Hi)]. right. f_equal. rewrite K1.
      unfold natural, clamp_duals, pt_of, lagr; cbn [pz pl pv]. f_equal.
      unfold ttimes. apply rsum_ext. intros k Hk. rewrite (proj_pt _ k (proj1 V) Hk). reflexivity.
    - intros k Hk. eapply Rle_trans; [|exact (N2 k Hk)]. right. rewrite K1. reflexivity.
    - intros k Hk. eapply Rle_trans; [|exact (N3 k Hk)]. right. rewrite K1.
      unfold natural, clamp_duals, pt_of; cbn [pz pl pv]. rewrite (proj_pt _ k (proj1 V) Hk). reflexivity.
  Qed.

  Lemma run_count B fin xk tr : 0 <= B -> 0 < solve_tolerance P o -> run_shape fin xk tr -> forall c, c_x c = xk -> evs c tr ->
    (forall pre y post, tr = pre ++ GProject y :: post ->
       forall k, (k < nv)%nat -> margin P (rg (v_z y)) k <= B /\ rg (v_v y) k <= B) ->
    let W := (1 + B) * sqrt (INR (nz + nl + nv)) / solve_tolerance P o in
    INR (count is_sub tr) <= 1 + 2 * left_factor P o * W * total_error P o c tr +
                            (2 * sg * W) * (2 * sg * W) * square_steps P tr.
  Proof.
    intros HB HT RS. assert (LP : 0 <= left_factor P o).
    { unfold left_factor. assert (0 <= mu_of al * (fro P + 2 + sg)); [|lra].
      apply Rmult_le_pos; [left; apply mu_pos; exact Ha|assert (F := fro_pos P); lra]. }
    set (M := (1 + B) * sqrt (INR (nz + nl + nv))). cbv zeta. set (W := M / solve_tolerance P o).
    assert (PM : 0 <= M) by (apply Rmult_le_pos; [lra|apply sqrt_pos]).
    assert (PW : 0 <= W) by (apply Rmult_le_pos; [exact PM|left; apply Rinv_0_lt_compat; exact HT]).
    assert (PG : 0 <= 2 * left_factor P o * W) by (apply Rmult_le_pos; lra).
    assert (PH : 0 <= (2 * sg * W) * (2 * sg * W)) by apply Rle_0_sqr.
    assert (NS : forall (l : list (ghost R)), Forall is_inner l -> count is_sub l = 0%nat).
    { induction 1 as [|g l Hg Hl IH]; [reflexivity|]. rewrite count_cons, IH. destruct g; try contradiction; reflexivity. }
    assert (SP : forall t, 0 <= square_steps P t).
    { induction t as [|g t IH]; cbn [square_steps]; [lra|]. destruct g; try lra.
      match goal with |- 0 <= nrm P ?a * _ + _ => assert (Q := Rle_0_sqr (nrm P a)); unfold Rsqr in Q; lra end. }
    induction RS as [xk|xk prev tol Ek l HF Hl|xk prev tol Ek l x1 HF Hl|xk prev tol Ek l x1 dx tr Hl Htr IH];
      intros c Hc H HN.
    - cbn [total_error square_steps]. rewrite count_nil. cbn [INR]. lra.
    - rewrite count_cons, (NS _ Hl). cbn [is_sub Nat.add INR].
      assert (Q1 := total_error_pos (P:=P) (o:=o) (GSub prev tol Ek xk :: l) c). assert (Q2 := SP (GSub prev tol Ek xk :: l)).
      assert (0 <= 2 * left_factor P o * W * total_error P o c (GSub prev tol Ek xk :: l)) by (apply Rmult_le_pos; assumption).
      assert (0 <= (2 * sg * W) * (2 * sg * W) * square_steps P (GSub prev tol Ek xk :: l)) by (apply Rmult_le_pos; assumption). lra.
    - rewrite count_cons, count_app, (NS _ Hl), count_cons, count_nil. cbn [is_sub Nat.add INR].
      set (t := GSub prev tol Ek xk :: l ++ [GProject x1]).
      assert (Q1 := total_error_pos (P:=P) (o:=o) t c). assert (Q2 := SP t).
      assert (0 <= 2 * left_factor P o * W * total_error P o c t) by (apply Rmult_le_pos; assumption).
      assert (0 <= (2 * sg * W) * (2 * sg * W) * square_steps P t) by (apply Rmult_le_pos; assumption). lra.
    - subst xk. rewrite count_cons, count_app, (NS _ Hl), !count_cons. cbn [is_sub square_steps total_error].
      set (c0 := upd c (GSub prev tol Ek (c_x c))) in *.
      destruct (inner_events (P:=P) (o:=o) l Hl c0) as (I1 & _ & I3 & I4 & _). rewrite I3, I4. cbn [square_steps total_error].
      assert (V : @vm P (c_x c)).
      { pose proof (H [] (GSub prev tol Ek (c_x c)) _ eq_refl) as K. cbn [ev_ok fold_left] in K. apply K. }
      assert (H2 := evs_app (P:=P) (o:=o) (x:=x) (DI:=DI) (d:=d) (pinit:=pinit) (pst:=pst) c [GSub prev tol Ek (c_x c)] _ H).
      cbn [fold_left] in H2. fold c0 in H2.
      assert (H3 := evs_app (P:=P) (o:=o) (x:=x) (DI:=DI) (d:=d) (pinit:=pinit) (pst:=pst) c0 l _ H2).
      set (c1 := fold_left upd l c0) in *.
      pose proof (H3 [] (GProject x1) _ eq_refl) as KP. cbn [fold_left] in KP.
      pose proof (H3 [GProject x1] (GProx dx) tr eq_refl) as X. cbn [ev_ok fold_left] in X. destruct X as [X1 X2].
      assert (H4 := evs_app (P:=P) (o:=o) (x:=x) (DI:=DI) (d:=d) (pinit:=pinit) (pst:=pst) c1 [GProject x1; GProx dx] tr H3).
      cbn [fold_left] in H4. set (c2 := upd (upd c1 (GProject x1)) (GProx dx)) in *.
      assert (J := IH c2 eq_refl H4). lapply J; clear J; [intro J|].
      2:{ intros pre y post EQ. apply (HN (GSub prev tol Ek (c_x c) :: l ++ GProject x1 :: GProx dx :: pre) y post).
        rewrite EQ. cbn [app]. rewrite <- app_assoc. reflexivity. }
      set (E := inner_error P o (c_x c1) (c_center c1)) in *. assert (PE : 0 <= E) by apply nrm_pos.
      set (dd := nrm P (pt_of dx)) in *. assert (PD : 0 <= dd) by apply nrm_pos.
      assert (PE2 : 0 <= 2 * left_factor P o * W * E) by (apply Rmult_le_pos; assumption).
      assert (PD2 : 0 <= (2 * sg * W) * (2 * sg * W) * (dd * dd)) by (apply Rmult_le_pos; [assumption|apply Rle_0_sqr]).
      change (1 + (0 + (0 + (0 + count is_sub tr))))%nat with (S (count is_sub tr)). rewrite S_INR.
      set (S2 := total_error P o c2 tr) in *.
      destruct tr as [|g tr].
      + rewrite count_nil. cbn [INR square_steps total_error] in *. unfold S2 in *. cbn [total_error] in *. lra.
      + assert (EG : exists prev' tol' Ek' xk', g = GSub prev' tol' Ek' xk') by (inversion Htr; repeat eexists).
        destruct EG as (prev' & tol' & Ek' & xk' & ->).
        pose proof (H4 [] _ _ eq_refl) as KS. cbn [fold_left ev_ok] in KS. destruct KS as (_ & KX & KV & KE & KT & _).
        rewrite combo_is in KT. apply Rleb_false in KT.
        assert (VX : @vm P x1) by (rewrite KX in KV; exact KV).
        assert (EE : outer_error P o (pt_of x1) = Ek').
        { rewrite KE, KX. symmetry. exact (pnr_is x1 VX). }
        assert (SO := step_outer c1 x1 B KP HB (HN (GSub prev tol Ek (c_x c) :: l) x1 _ eq_refl)).
        assert (ND : pdist P (pt_of x1) (pt_of (c_center c1)) = dd).
        { unfold dd. rewrite X1. cbn [upd c_center c_x]. symmetry. apply (step_norm RC); [|exact VX].
          rewrite I1. exact V. }
        fold E M in SO. rewrite ND, EE in SO.
        assert (ONE : 1 <= W * (left_factor P o * E + sg * dd)).
        { unfold W. apply Rmult_le_reg_l with (solve_tolerance P o); [exact HT|].
          replace (solve_tolerance P o * (M / solve_tolerance P o * (left_factor P o * E + sg * dd))) with
            (M * (left_factor P o * E + sg * dd)) by (field; lra). lra. }
        assert (CASE : 1 <= 2 * left_factor P o * W * E + (2 * sg * W) * (2 * sg * W) * (dd * dd)).
        { destruct (Rle_dec 1 (2 * left_factor P o * W * E)) as [C1|C1]; [lra|].
          assert (C2 : 1 <= 2 * sg * W * dd) by lra.
          assert (1 * 1 <= (2 * sg * W * dd) * (2 * sg * W * dd)) by (apply Rmult_le_compat; lra). lra. }
        rewrite ?Rplus_0_l, ?Rmult_plus_distr_l. cbn [square_steps] in J |- *. lra.
  Qed.
End Run.

Section Api.
  Context (LA : LinAlg R) (P : QP) (o : params R) (x : var R) (el : R) (r : solve_result R).
  Hypothesis call : solves LA P o x el r.
  Notation nz := (n_z P). Notation nl := (n_l P). Notation nv := (n_v P).
  Notation start := (start_at P x).
  Notation kap := (kappa_of P (p_alpha o) (p_sigma0 o)). Notation mu := (mu_of (p_alpha o)).
  Lemma tolerance_pos : 0 < solve_tolerance P o.
  Proof.
    pose proof (solve_admissible _ _ _ _ _ _ call) as AD. destruct (solve_tol _ _ _ _ _ _ call) as [T1 T2].
    pose proof (ad_abs _ _ AD) as K. apply Rleb_true in K. unfold solve_tolerance.
    match goal with |- 0 < _ + p_rel_tol o * (1 + sqrt ?a) => assert (0 <= p_rel_tol o * (1 + sqrt a)) by
      (apply Rmult_le_pos; [exact T2|assert (Q := sqrt_pos a); lra]) end.
    revert K. cbn; unfold Rdec; cbn. lra.
  Qed.

  (* ---------------------------------------------------------------- C56 *)
  (* The residual after a proximal step that leaves its subproblem with residual E: xb is the centre, y the
     result; B bounds the margins and multipliers of y. *)
  Theorem C56_step_residual : forall pre y post, sr_trace r = pre ++ GProject y :: post ->
    forall B, 0 <= B -> (forall k, (k < nv)%nat -> cb P k - times nz (cA P) (rg (v_z y)) k <= B /\ rg (v_v y) k <= B) ->
    let c := after start pre in let E := inner_error P o (c_x c) (c_center c) in
    outer_error P o (pt_of y) <= (1 + B) * sqrt (INR (nz + nl + nv)) *
      (left_factor P o * E + p_sigma0 o * pdist P (pt_of y) (pt_of (c_center c))).
  Proof.
    intros pre y post ET B HB HY. cbv zeta.
    pose proof (solve_alpha _ _ _ _ _ _ call) as Ha; pose proof (solve_sigma _ _ _ _ _ _ call) as Hs.
    destruct (solves_rcall _ _ _ _ _ _ call) as (D & DI & d & pinit & pst & stale & w & RC).
    pose proof (event_vm RC) as EV; rewrite (start_is RC) in EV.
    apply (step_outer (x:=x) (DI:=DI) (d:=d) (pinit:=pinit) (pst:=pst) Ha Hs _ _ _ (EV _ _ _ ET) HB HY).
  Qed.

  (* The number of proximal subproblems of a run on a convex problem with a solution. *)
  Theorem C56_subproblems : convex P -> forall s bs, bounded_solution P bs s ->
    INR (count is_sub (sr_trace r)) <=
      prox_needed P o bs (pdist P (pt_of x) s) (total_error P o (start_ctx start) (sr_trace r)).
  Proof.
    intros Cv s bs (KS & PB & BS).
    pose proof (C53_square_summable _ _ _ _ _ _ call Cv s KS) as SQ.
    destruct (C52_iterates_bounded _ _ _ _ _ _ call Cv s KS) as (_ & IB & _). cbv zeta in IB.
    pose proof (solve_alpha _ _ _ _ _ _ call) as Ha; pose proof (solve_sigma _ _ _ _ _ _ call) as Hs.
    destruct (solves_rcall _ _ _ _ _ _ call) as (D & DI & d & pinit & pst & stale & w & RC).
    pose proof (event_vm RC) as EV; rewrite (start_is RC) in EV.
    pose proof (desc_shape Rops pinit pst stale w (rc_cd _ _ _ _ _ _ _ _ _ _ _ _ _ RC)) as SH; rewrite (start_is RC) in SH.
    set (D0 := pdist P (pt_of x) s) in *. set (Sm := total_error P o (start_ctx start) (sr_trace r)) in *.
    assert (PK := kappa_pos P _ _ Ha Hs). assert (PM := mu_pos _ Ha).
    assert (PR : 0 <= radius P o D0 Sm).
    { unfold radius. assert (0 <= D0) by apply pdist_pos. assert (0 <= Sm) by apply total_error_pos.
      assert (0 <= (kap + mu) * Sm) by (apply Rmult_le_pos; lra). lra. }
    assert (PF := fro_pos P).
    assert (PE : 0 <= (1 + fro P) * radius P o D0 Sm) by (apply Rmult_le_pos; lra).
    pose proof (run_count RC Ha Hs (entry_bound P o bs D0 Sm) _ start _ ltac:(unfold entry_bound; lra) tolerance_pos SH
                (start_ctx start) eq_refl EV) as K. lapply K; clear K; [intro K|].
    2:{ intros pre y post ET k Hk. specialize (IB _ _ _ ET). fold (radius P o D0 Sm) in IB. destruct (BS k Hk) as [B1 B2].
      assert (M1 := margin_near P (pt_of y) s k Hk). assert (M2 := dual_near P (pt_of y) s k Hk). cbn [pz pv pt_of] in M1, M2.
      assert (fro P * pdist P (pt_of y) s <= fro P * radius P o D0 Sm) by (apply Rmult_le_compat_l; assumption).
      unfold entry_bound. rewrite Rmult_plus_distr_r.
      assert (0 <= fro P * radius P o D0 Sm) by (apply Rmult_le_pos; assumption). lra. }
    cbv zeta in K. fold (weight P o bs D0 Sm) in K. fold Sm in K.
    unfold prox_needed. cbv zeta. eapply Rle_trans; [exact K|].
    apply Rplus_le_compat_l. apply Rmult_le_compat_l; [apply Rle_0_sqr|exact SQ].
  Qed.
End Api.

(* ---------------------------------------------------------------- C57 *)
(* ---------- specification ---------- *)
(* what the subproblem residuals can sum to (C52_error_budget) in max_prox_iters subproblems *)
Definition error_budget (o : params R) : R :=
  p_inner_tol_max o * (p_delta o / (1 - p_delta o)) + IZR (p_max_prox o) * p_inner_tol_min o.
(* bound of the residuals of the proximal iterates; E0 is that of the guess *)
Definition residual_cap (P : QP) (o : params R) (bs Dd E0 : R) : R :=
  Rmax E0 (weight P o bs Dd (error_budget o) *
           (left_factor P o * p_inner_tol_max o + 2 * p_sigma0 o * radius P o Dd (error_budget o))).
(* the iteration limits leave room: for a guess at distance Dd of a solution, with residual E0 *)
Definition enough_iterations (P : QP) (o : params R) (bs Dd E0 : R) : Prop :=
  16 * (residual_cap P o bs Dd E0 * residual_cap P o bs Dd E0) <
    decrease_rate o * (p_inner_tol_min o * p_inner_tol_min o) * INR ((Z.to_nat (p_max_inner o) + 4) / 5) /\
  prox_needed P o bs Dd (error_budget o) < IZR (p_max_prox o) /\
  (p_max_prox o * p_max_inner o <= p_max_newton o)%Z.

(* ---------- proofs ---------- *)
Lemma inner_run_inner {T} (xb y xe : var T) l : inner_run xb y l xe -> Forall is_inner l.
Proof.
  induction 1 as [|y Ei Eo|y Ei Eo ms dx cm m0 t j acc x' l xe F H IH]; repeat constructor.
  apply Forall_app. split; [|constructor; [exact I|exact IH]].
  eapply Forall_impl; [|exact F]. intros g (xp & mp & ->). exact I.
Qed.
Lemma inner_cx (xb y xe : var R) l : inner_run xb y l xe -> forall c, c_x c = y -> c_x (fold_left upd l c) = xe.
Proof.
  induction 1 as [y|y Ei Eo|y Ei Eo ms dx cm m0 t j acc x' l xe F H IH]; intros c Hc; try exact Hc.
  cbn [fold_left]. rewrite fold_left_app. cbn [fold_left]. apply IH. reflexivity.
Qed.
Lemma inner_counts (l : list (ghost R)) : Forall is_inner l -> forall c,
  length (c_merits (fold_left upd l c)) = (length (c_merits c) + count is_step l)%nat /\
  c_newton (fold_left upd l c) = (c_newton c + Z.of_nat (count is_lin l))%Z /\
  c_prox (fold_left upd l c) = c_prox c /\ c_tol (fold_left upd l c) = c_tol c.
Proof.
  induction 1 as [|g l Hg Hl IH]; intro c; [cbn [fold_left]; rewrite !count_nil; repeat split; lia|].
  cbn [fold_left]. destruct (IH (upd c g)) as (A & B & C & E). rewrite !count_cons, A, B, C, E.
  destruct g; try contradiction; cbn [upd c_merits c_newton c_prox c_tol is_step is_lin length]; repeat split; lia.
Qed.

Section Run2.
  Context {LA : LinAlg R} {P : QP} {o : params R} {x : var R} {el : R} {r : solve_result R}.
  Hypothesis call : solves LA P o x el r.
  Context {D : Type} {DI : DataI R D} {d : D} {pinit : R -> R -> var R -> var R -> res bool}
          {pst : R -> R -> var R -> var R -> rsd R -> var R} {stale : rsd R} {w : ws R}.
  Hypothesis RC : rcall LA P o x el r D DI d pinit pst stale w.
  Notation nz := (n_z P). Notation nl := (n_l P). Notation nv := (n_v P).
  Notation pb := (prob_of Rops DI d nz nl nv pinit pst o).
  Notation itol0 := (itol0_of Rops DI d nz nl nv o x pinit pst).
  Notation ones := (pones Rops pb nz nl nv).
  Notation evs c tr := (trace_ok Rops o pb (@vm P) itol0 ones c tr).
  Notation al := (p_alpha o). Notation sg := (p_sigma0 o).
  Notation kap := (kappa_of P al sg). Notation mu := (mu_of al).
  Notation mn := (p_inner_tol_min o). Notation mx := (p_inner_tol_max o). Notation dl := (p_delta o).
  Notation tolof := (tol_of itol0).
  Notation start := (start_at P x).
  Variables (s : pt) (bs : R).
  Hypothesis Cv : convex P.
  Hypothesis BS : bounded_solution P bs s.
  Hypothesis AC : all_accepted (sr_trace r).
  Notation D0 := (pdist P (pt_of x) s).
  Notation Rb := (radius P o D0 (error_budget o)).
  Notation cap := (residual_cap P o bs D0 (outer_error P o (pt_of x))).
  Hypothesis EN : enough_iterations P o bs D0 (outer_error P o (pt_of x)).

  Definition room (c : ctx R) : Prop :=
    @vm P (c_x c) /\
    pdist P (pt_of (c_x c)) s + (kap + mu) * ((tolof c - mn) * (dl / (1 - dl)) + IZR (p_max_prox o - c_prox c) * mn) <= Rb /\
    mn <= tolof c <= mx /\ outer_error P o (pt_of (c_x c)) <= cap /\
    (0 <= c_prox c <= p_max_prox o)%Z /\ (c_newton c <= c_prox c * (p_max_inner o - 1))%Z.

  Lemma room_start : mn <= mx -> room (after start []).
  Proof.
    intro TM. pose proof (solve_alpha _ _ _ _ _ _ call) as Ha. pose proof (solve_sigma _ _ _ _ _ _ call) as Hs.
    destruct (delta_in _ _ _ _ _ _ call) as (Hd & Hm & _). pose proof (ad_prox _ _ (solve_admissible _ _ _ _ _ _ call)) as AP.
    pose proof (vm_start RC) as VS; rewrite (start_is RC) in VS.
    assert (PK := kappa_pos P _ _ Ha Hs). assert (PM := mu_pos _ Ha).
    assert (PQ : 0 < dl / (1 - dl)) by (apply Rdiv_lt_0_compat; lra).
    unfold room, after. cbn [fold_left start_ctx c_x c_prox c_newton]. change (pt_of (start_at P x)) with (pt_of x).
    split; [exact VS|].
    assert (TB : mn <= tolof (start_ctx start) <= mx).
    { unfold tol_of. cbn [start_ctx c_tol]. unfold itol0_of, sat. rewrite smax_R, smin_R. split; [apply Rmax_r|].
      apply Rmax_lub; [apply Rmin_r|exact TM]. }
    set (t := tol_of _ _) in *. split; [|split; [exact TB|]]; [|split; [|lia]].
    - unfold radius, error_budget. apply Rplus_le_compat_l. apply Rmult_le_compat_l; [lra|].
      rewrite Z.sub_0_r. apply Rplus_le_compat_r. apply Rmult_le_compat_r; lra.
    - unfold residual_cap. apply Rmax_l.
  Qed.

  Lemma one_subproblem pre prev tol Ek l xe y rest :
    sr_trace r = pre ++ GSub prev tol Ek (c_x (after start pre)) :: l ++ GProject y :: rest ->
    inner_run (c_x (after start pre)) (c_x (after start pre)) l xe -> all_accepted l ->
    room (after start pre) ->
    let c1 := after start (pre ++ GSub prev tol Ek (c_x (after start pre)) :: l) in
    (length (c_merits c1) < Z.to_nat (p_max_inner o))%nat /\ (c_newton c1 < p_max_newton o)%Z /\
    c_prox c1 = c_prox (after start pre) /\ (c_newton c1 <= (c_prox c1 + 1) * (p_max_inner o - 1))%Z /\
    (c_prox c1 < p_max_prox o)%Z /\
    forall dx, room (upd (upd c1 (GProject y)) (GProx dx)).
  Proof.
    intros ET IR ACl (VX & RB & TL & OC & PX & NW). set (c := after start pre) in *. cbv zeta.
    pose proof (solve_admissible _ _ _ _ _ _ call) as AD. pose proof (solve_alpha _ _ _ _ _ _ call) as Ha.
    pose proof (solve_sigma _ _ _ _ _ _ call) as Hs.
    destruct (delta_in _ _ _ _ _ _ call) as (Hd & Hm & _).
    destruct BS as (KS & PB & BB). destruct EN as (EN1 & EN2 & EN3).
    pose proof (event_vm RC) as EV; rewrite (start_is RC) in EV.
    pose proof (inner_run_inner _ _ _ _ IR) as Hl.
    (* number of steps *)
    destruct (C55_inner_progress _ _ _ _ _ _ call pre prev tol Ek (c_x c) l xe (GProject y :: rest) ET IR ACl) as (_ & _ & I3 & I4 & _ & I6).
    assert (QRP : 0 < decrease_rate o).
    { unfold decrease_rate. pose proof (between_R _ _ _ (ad_beta _ _ AD)) as K1. pose proof (between_R _ _ _ (ad_eta _ _ AD)) as K2.
      revert K1 K2. cbn; unfold Rdec; cbn. intros. apply Rmult_lt_0_compat; [lra|apply pow_lt; lra]. }
    assert (LK : (count is_step l < Z.to_nat (p_max_inner o))%nat).
    { set (E := inner_error P o (c_x c) (c_x c)) in *. assert (PE : 0 <= E) by apply nrm_pos.
      assert (E <= 4 * cap) by lra. assert (E * E <= (4 * cap) * (4 * cap)) by (apply Rmult_le_compat; lra).
      assert (QM : 0 < decrease_rate o * (mn * mn)) by (apply Rmult_lt_0_compat; [exact QRP|apply Rmult_lt_0_compat; exact Hm]).
      set (k := count is_step l) in *. set (m := Z.to_nat (p_max_inner o)) in *.
      assert (LT : INR ((k + 4) / 5) < INR ((m + 4) / 5)).
      { apply Rmult_lt_reg_l with (decrease_rate o * (mn * mn)); [exact QM|]. lra. }
      apply INR_lt in LT. destruct (Nat.lt_ge_cases k m) as [?|GE]; [assumption|].
      assert (Q := Nat.div_le_mono (m + 4) (k + 4) 5 ltac:(lia) ltac:(lia)). lia. }
    pose proof (EV _ _ _ ET) as KG. fold c in KG.
    assert (C1 : after start (pre ++ GSub prev tol Ek (c_x c) :: l) = fold_left upd l (upd c (GSub prev tol Ek (c_x c)))).
    { unfold c, after. rewrite fold_left_app. reflexivity. }
    rewrite C1. set (c0 := upd c (GSub prev tol Ek (c_x c))) in *. set (c1 := fold_left upd l c0) in *.
    destruct (inner_counts l Hl c0) as (L1 & L2 & L3 & L4). fold c1 in L1, L2, L3, L4.
    cbn [c0 upd c_merits c_newton c_prox c_tol length] in L1, L2, L3, L4.
    change (c_newton c0) with (c_newton c) in L2. change (c_prox c0) with (c_prox c) in L3.
    change (c_tol c0) with (Some tol) in L4. change (length (c_merits c0)) with 0%nat in L1.
    rewrite (inner_run_steps _ _ _ _ IR) in L2.
    cbn [ev_ok] in KG. destruct KG as (G1 & _ & _ & G4 & _ & _ & G7 & G8).
    pose proof (ad_inner _ _ AD) as AI.
    assert (N1 : (c_newton c1 <= (c_prox c1 + 1) * (p_max_inner o - 1))%Z) by (rewrite L2, L3; nia).
    assert (N2 : (c_newton c1 < p_max_newton o)%Z).
    { rewrite L3 in N1. assert ((c_prox c + 1) * (p_max_inner o - 1) <= p_max_prox o * (p_max_inner o - 1))%Z by nia. nia. }
    split; [lia|]. split; [exact N2|]. split; [exact L3|]. split; [exact N1|]. split; [lia|].
    intro dx.
    (* the projection *)
    assert (ET2 : sr_trace r = (pre ++ GSub prev tol Ek (c_x c) :: l) ++ GProject y :: rest)
      by (rewrite <- app_assoc; exact ET).
    pose proof (EV _ _ _ ET2) as KP. rewrite C1 in KP.
    assert (CC : c_center c1 = c_x c).
    { destruct (inner_events (P:=P) (o:=o) l Hl c0) as (Q & _). unfold c1. rewrite Q. reflexivity. }
    destruct (small_error RC c1 y KP ltac:(rewrite CC; exact VX) ltac:(lia) N2) as (tol' & T1 & T2).
    rewrite L4 in T1. injection T1 as <-.
    (* the tolerance *)
    unfold saturate in G8. destruct (o_ltb Rops Ek mn); [discriminate|]. injection G8 as G8. rewrite smax_R, smin_R in G8.
    cbn [o_mul Rops] in G8. rewrite G1 in G8.
    set (t := tolof c) in *.
    assert (TB : mn <= tol /\ tol - mn <= dl * (t - mn) /\ tol <= mx).
    { rewrite <- G8. assert (dl * mn <= mn) by nra. assert (t * dl <= t) by nra.
      unfold Rmax, Rmin. repeat match goal with |- context [Rle_dec ?a ?b] => destruct (Rle_dec a b) end; repeat split; nra. }
    destruct TB as (TB1 & TB2 & TB3). rewrite Rmax_left in T2 by exact TB1.
    set (E := inner_error P o (c_x c1) (c_center c1)) in *. assert (PE : 0 <= E) by apply nrm_pos.
    destruct (C52_proximal_step _ _ _ _ _ _ call _ _ _ ET2) as (_ & _ & ST). rewrite C1 in ST. fold E in ST.
    destruct (ST Cv s KS) as [ST1 _]. rewrite CC in ST1.
    assert (PK := kappa_pos P _ _ Ha Hs). assert (PM := mu_pos _ Ha). assert (PF := fro_pos P).
    assert (S1 : (kap + mu) * E <= (kap + mu) * tol) by (apply Rmult_le_compat_l; lra).
    assert (VY : @vm P y) by (cbn [ev_ok] in KP; apply KP).
    assert (PQ : 0 < dl / (1 - dl)) by (apply Rdiv_lt_0_compat; lra).
    set (q := dl / (1 - dl)) in *. assert (Q1 : q = dl + dl * q) by (unfold q; field; lra).
    assert (MONO : tol + (tol - mn) * q + IZR (p_max_prox o - (c_prox c + 1)) * mn <= (t - mn) * q + IZR (p_max_prox o - c_prox c) * mn).
    { replace (p_max_prox o - c_prox c)%Z with (p_max_prox o - (c_prox c + 1) + 1)%Z by lia. rewrite plus_IZR.
      assert ((tol - mn) * (1 + q) <= dl * (t - mn) * (1 + q)) by (apply Rmult_le_compat_r; lra).
      assert (dl * (t - mn) * (1 + q) = (t - mn) * q) by (rewrite Q1 at 2; ring). lra. }
    assert (NEW : pdist P (pt_of y) s + (kap + mu) * ((tol - mn) * q + IZR (p_max_prox o - (c_prox c + 1)) * mn) <= Rb).
    { assert (SUM : (kap + mu) * (tol + (tol - mn) * q + IZR (p_max_prox o - (c_prox c + 1)) * mn) <=
                    (kap + mu) * ((t - mn) * q + IZR (p_max_prox o - c_prox c) * mn)) by (apply Rmult_le_compat_l; lra).
      rewrite !Rmult_plus_distr_l in SUM |- *. rewrite !Rmult_plus_distr_l in RB. lra. }
    assert (IP : 0 <= IZR (p_max_prox o - (c_prox c + 1))) by (apply IZR_le; lia).
    assert (IP2 : 0 <= IZR (p_max_prox o - c_prox c)) by (apply IZR_le; lia).
    assert (IM : 0 <= IZR (p_max_prox o - (c_prox c + 1)) * mn) by (apply Rmult_le_pos; lra).
    assert (IM2 : 0 <= IZR (p_max_prox o - c_prox c) * mn) by (apply Rmult_le_pos; lra).
    assert (IQ : 0 <= (tol - mn) * q) by (apply Rmult_le_pos; lra).
    assert (IQ2 : 0 <= (t - mn) * q) by (apply Rmult_le_pos; lra).
    assert (DY : pdist P (pt_of y) s <= Rb).
    { assert (0 <= (kap + mu) * ((tol - mn) * q + IZR (p_max_prox o - (c_prox c + 1)) * mn)) by (apply Rmult_le_pos; lra). lra. }
    assert (DX : pdist P (pt_of (c_x c)) s <= Rb).
    { assert (0 <= (kap + mu) * ((t - mn) * q + IZR (p_max_prox o - c_prox c) * mn)) by (apply Rmult_le_pos; lra). lra. }
    assert (PRb : 0 <= Rb) by (assert (K := pdist_pos P (pt_of y) s); lra).
    assert (PEB : 0 <= entry_bound P o bs D0 (error_budget o)).
    { unfold entry_bound. assert (0 <= (1 + fro P) * Rb) by (apply Rmult_le_pos; lra). lra. }
    unfold room.
    assert (TT : tolof (upd (upd c1 (GProject y)) (GProx dx)) = tol) by (unfold tol_of; cbn [upd c_tol]; rewrite L4; reflexivity).
    rewrite TT. cbn [upd c_x c_prox c_newton]. rewrite L3. split; [exact VY|]. split; [exact NEW|]. split; [lra|]. split; [|split; [lia|lia]].
    eapply Rle_trans; [apply (step_outer (x:=x) (DI:=DI) (d:=d) (pinit:=pinit) (pst:=pst) Ha Hs c1 y (entry_bound P o bs D0 (error_budget o)) KP PEB)|].
    - intros k Hk. destruct (BB k Hk) as [B1 B2].
      assert (M1 := margin_near P (pt_of y) s k Hk). assert (M2 := dual_near P (pt_of y) s k Hk). cbn [pz pv pt_of] in M1, M2.
      assert (fro P * pdist P (pt_of y) s <= fro P * Rb) by (apply Rmult_le_compat_l; assumption).
      assert (0 <= fro P * Rb) by (apply Rmult_le_pos; assumption).
      unfold entry_bound. rewrite Rmult_plus_distr_r. lra.
    - fold (weight P o bs D0 (error_budget o)). unfold residual_cap. eapply Rle_trans; [|apply Rmax_r].
      apply Rmult_le_compat_l.
      + unfold weight. apply Rmult_le_pos; [lra|apply sqrt_pos].
      + fold E. rewrite CC. assert (TR := ProxSpec.triangle P (pt_of y) s (pt_of (c_x c))). rewrite (pdist_sym P s) in TR.
        assert (LP : 0 <= left_factor P o).
        { unfold left_factor. assert (0 <= mu * (fro P + 2 + sg)); [|lra]. apply Rmult_le_pos; lra. }
        assert (left_factor P o * E <= left_factor P o * mx) by (apply Rmult_le_compat_l; lra).
        assert (sg * pdist P (pt_of y) (pt_of (c_x c)) <= sg * (2 * Rb)) by (apply Rmult_le_compat_l; lra). lra.
  Qed.

  Lemma no_limits fin xk tr : run_grammar Rops fin xk tr -> forall pre, sr_trace r = pre ++ tr ->
    c_x (after start pre) = xk -> room (after start pre) ->
    (forall pre2 y post, tr = pre2 ++ GProject y :: post ->
       (length (c_merits (after start (pre ++ pre2))) < Z.to_nat (p_max_inner o))%nat /\
       (c_newton (after start (pre ++ pre2)) < p_max_newton o)%Z) /\
    (fin <> None -> (c_newton (after start (pre ++ tr)) < p_max_newton o)%Z) /\
    (forall pre2 y post, tr = pre2 ++ GProject y :: post -> pdist P (pt_of y) s <= Rb).
  Proof.
    assert (Hm : 0 < mn) by (destruct (delta_in _ _ _ _ _ _ call) as (_ & ? & _); assumption).
    assert (Hd : 0 < dl < 1) by apply (delta_in _ _ _ _ _ _ call).
    pose proof (ad_inner _ _ (solve_admissible _ _ _ _ _ _ call)) as AI.
    pose proof (ad_prox _ _ (solve_admissible _ _ _ _ _ _ call)) as AP.
    assert (PK := kappa_pos P _ _ (solve_alpha _ _ _ _ _ _ call) (solve_sigma _ _ _ _ _ _ call)).
    assert (PM := mu_pos _ (solve_alpha _ _ _ _ _ _ call)).
    assert (RD : forall c, room c -> pdist P (pt_of (c_x c)) s <= Rb).
    { intros c (_ & R1 & R2 & _ & R4 & _).
      assert (0 < dl / (1 - dl)) by (apply Rdiv_lt_0_compat; lra).
      assert (0 <= (tolof c - mn) * (dl / (1 - dl))) by (apply Rmult_le_pos; lra).
      assert (0 <= IZR (p_max_prox o - c_prox c)) by (apply IZR_le; lia).
      assert (0 <= IZR (p_max_prox o - c_prox c) * mn) by (apply Rmult_le_pos; lra).
      assert (0 <= (kap + mu) * ((tolof c - mn) * (dl / (1 - dl)) + IZR (p_max_prox o - c_prox c) * mn)) by (apply Rmult_le_pos; lra).
      lra. }
    assert (NOP : forall (l : list (ghost R)), Forall is_inner l -> forall pre2 y post rest z, l ++ GProject z :: rest = pre2 ++ GProject y :: post ->
      (pre2 = l /\ y = z /\ post = rest) \/ exists p3, pre2 = l ++ GProject z :: p3 /\ rest = p3 ++ GProject y :: post).
    { induction 1 as [|g l Hg Hl IH]; intros pre2 y post rest z E; cbn [app] in E.
      - destruct pre2 as [|g pre2]; cbn [app] in E; injection E as E1 E2.
        + left. subst. auto.
        + right. exists pre2. subst. auto.
      - destruct pre2 as [|g' pre2]; cbn [app] in E; injection E as E1 E2.
        + subst g. contradiction.
        + subst g'. destruct (IH _ _ _ _ _ E2) as [(A & B & C)|(p3 & A & B)]; [left; subst; auto|right; exists p3; subst; auto]. }
    destruct EN as (_ & _ & EN3).
    induction 1 as [xk|xk prev tol Ek l xe Ei Eo HF IR|xk prev tol Ek l xe y HF IR PJ|xk prev tol Ek l xe y dx tr IR PJ RG IH];
      intros pre ET CX RM.
    - rewrite app_nil_r. split; [intros [|] ? ? ?; discriminate|]. split; [|intros [|] ? ? ?; discriminate].
      intros _. destruct RM as (_ & _ & _ & _ & R4 & R5). nia.
    - assert (NO : forall pre2 y post, GSub prev tol Ek xk :: l ++ [GInner xe Ei Eo] <> pre2 ++ GProject y :: post).
      { intros pre2 y post E. pose proof (inner_run_inner _ _ _ _ IR) as HI.
        destruct pre2 as [|g pre2]; cbn [app] in E; [discriminate|]. injection E as _ E. rewrite E in HI.
        apply Forall_app in HI. destruct HI as [_ HI]. inversion HI; contradiction. }
      split; [|split].
      + intros pre2 y post E. exfalso. exact (NO _ _ _ E).
      + intro X. contradiction.
      + intros pre2 y post E. exfalso. exact (NO _ _ _ E).
    - subst xk. assert (ACl : all_accepted l).
      { intros a1 a2 a3 a4 a5 a6 a7 a8 HI. eapply AC. rewrite ET. apply in_or_app; right. right. apply in_or_app; left. exact HI. }
      destruct (one_subproblem pre prev tol Ek l xe y [] ET IR ACl RM) as (O1 & O2 & O3 & O4 & O5 & O6).
      set (c := after start pre) in *.
      assert (DY := RD _ (O6 (c_x c))). cbn [upd c_x] in DY.
      pose proof (inner_run_inner _ _ _ _ IR) as Hl.
      assert (UQ : forall pre2 y0 post, GSub prev tol Ek (c_x c) :: l ++ [GProject y] = pre2 ++ GProject y0 :: post ->
                 pre2 = GSub prev tol Ek (c_x c) :: l /\ y0 = y).
      { intros pre2 y0 post E. destruct pre2 as [|g pre2]; cbn [app] in E; [discriminate|]. injection E as <- E.
        destruct (NOP l Hl _ _ _ _ _ E) as [(-> & -> & _)|(p3 & _ & X)]; [auto|destruct p3; discriminate]. }
      split; [|split].
      + intros pre2 y0 post E. destruct (UQ _ _ _ E) as [-> ->]. split; assumption.
      + intros _. replace (pre ++ GSub prev tol Ek (c_x c) :: l ++ [GProject y]) with
          ((pre ++ GSub prev tol Ek (c_x c) :: l) ++ [GProject y]) by (rewrite <- app_assoc; reflexivity).
        unfold after at 1. rewrite fold_left_app. exact O2.
      + intros pre2 y0 post E. destruct (UQ _ _ _ E) as [-> ->]. exact DY.
    - subst xk. assert (ACl : all_accepted l).
      { intros a1 a2 a3 a4 a5 a6 a7 a8 HI. eapply AC. rewrite ET. apply in_or_app; right. right. apply in_or_app; left. exact HI. }
      destruct (one_subproblem pre prev tol Ek l xe y _ ET IR ACl RM) as (O1 & O2 & O3 & O4 & O5 & O6).
      set (c := after start pre) in *.
      assert (DY := RD _ (O6 (c_x c))). cbn [upd c_x] in DY.
      pose proof (inner_run_inner _ _ _ _ IR) as Hl.
      set (pre' := pre ++ GSub prev tol Ek (c_x c) :: l ++ [GProject y; GProx dx]).
      assert (EA : forall t, pre' ++ t = pre ++ GSub prev tol Ek (c_x c) :: l ++ GProject y :: GProx dx :: t).
      { intro t. unfold pre'. rewrite <- app_assoc. cbn [app]. rewrite <- app_assoc. reflexivity. }
      assert (CP : after start pre' = upd (upd (after start (pre ++ GSub prev tol Ek (c_x c) :: l)) (GProject y)) (GProx dx)).
      { unfold pre', after. rewrite !fold_left_app. cbn [fold_left]. rewrite fold_left_app. reflexivity. }
      destruct (IH pre') as (J1 & J2 & J3).
      { rewrite EA. exact ET. }
      { rewrite CP. reflexivity. }
      { rewrite CP. apply O6. }
      rewrite <- EA.
      assert (UQ : forall pre2 y0 post, GSub prev tol Ek (c_x c) :: l ++ GProject y :: GProx dx :: tr = pre2 ++ GProject y0 :: post ->
                 (pre2 = GSub prev tol Ek (c_x c) :: l /\ y0 = y) \/
                 exists p4, pre2 = GSub prev tol Ek (c_x c) :: l ++ GProject y :: GProx dx :: p4 /\ tr = p4 ++ GProject y0 :: post).
      { intros pre2 y0 post E. destruct pre2 as [|g pre2]; cbn [app] in E; [discriminate|]. injection E as <- E.
        destruct (NOP l Hl _ _ _ _ _ E) as [(-> & -> & _)|(p3 & -> & X)]; [auto|].
        destruct p3 as [|g p3]; cbn [app] in X; [discriminate|]. injection X as <- X. right. exists p3. auto. }
      split; [|split].
      + intros pre2 y0 post E. destruct (UQ _ _ _ E) as [[-> ->]|(p4 & -> & E4)]; [split; assumption|].
        rewrite <- EA. eapply J1. exact E4.
      + intro X. apply J2. exact X.
      + intros pre2 y0 post E. destruct (UQ _ _ _ E) as [[-> ->]|(p4 & -> & E4)]; [exact DY|]. eapply J3. exact E4.
  Qed.
End Run2.

Lemma sq_bound_le P o Dd S1 S2 : 0 < p_alpha o < 1 -> 0 < p_sigma0 o -> 0 <= Dd -> 0 <= S1 -> S1 <= S2 ->
  sq_bound P o Dd S1 <= sq_bound P o Dd S2.
Proof.
  intros Ha Hs H1 H2 H3. assert (PK := kappa_pos P _ _ Ha Hs). assert (PM := mu_pos _ Ha).
  unfold sq_bound. cbv zeta. apply Rplus_le_compat_l.
  set (b := kappa_of P (p_alpha o) (p_sigma0 o) + mu_of (p_alpha o)). set (a := kappa_of P (p_alpha o) (p_sigma0 o) + 3 * mu_of (p_alpha o)).
  assert (Pb : 0 < b) by (unfold b; lra). assert (Pa : 0 < a) by (unfold a; lra). clearbody a b. clear - H1 H2 H3 Pa Pb.
  assert (0 <= b * S1) by (apply Rmult_le_pos; lra). assert (b * S1 <= b * S2) by (apply Rmult_le_compat_l; lra).
  assert (Pbb : 0 <= b * b) by apply Rle_0_sqr.
  apply Rmult_le_compat.
  - lra.
  - apply Rplus_le_le_0_compat; apply Rmult_le_pos; lra.
  - lra.
  - apply Rplus_le_compat; apply Rmult_le_compat_l; lra.
Qed.

(* A convex problem with a solution s; the line searches of the run all succeed and the iteration limits leave
   room.  Then no limit is met: Solve ends with SUCCESS, or with an infeasibility flag if it looks for one. *)
Theorem C57_convergence : forall LA P o x el r, solves LA P o x el r -> convex P ->
  forall s bs, bounded_solution P bs s -> p_inner_tol_min o <= p_inner_tol_max o ->
  all_accepted (sr_trace r) ->
  enough_iterations P o bs (pdist P (pt_of x) s) (outer_error P o (pt_of x)) ->
  forall out, sr_out r = Ok out ->
  so_eflag out <> MAXITERATIONS /\ (p_check_feas o = false -> so_eflag out = SUCCESS) /\
  (so_eflag out = SUCCESS -> pdist P (pt_of (sr_x r)) s <= radius P o (pdist P (pt_of x) s) (error_budget o)).
Proof.
  intros LA P o x el r call Cv s bs BS TM AC EN out EO.
  pose proof (C53_square_summable _ _ _ _ _ _ call Cv s (proj1 BS)) as SQ.
  pose proof (C52_error_budget _ _ _ _ _ _ call) as BUD.
  destruct (C52_iterates_bounded _ _ _ _ _ _ call Cv s (proj1 BS)) as (_ & _ & IB). specialize (IB out EO). cbv zeta in IB.
  pose proof (solve_admissible _ _ _ _ _ _ call) as AD. pose proof (solve_alpha _ _ _ _ _ _ call) as Ha.
  pose proof (solve_sigma _ _ _ _ _ _ call) as Hs. destruct (delta_in _ _ _ _ _ _ call) as (Hd & Hm & _).
  destruct (solves_rcall _ _ _ _ _ _ call) as (D & DI & d & pinit & pst & stale & w & RC).
  pose proof (event_vm RC) as EV; rewrite (start_is RC) in EV.
  pose proof (vm_start RC) as VS; rewrite (start_is RC) in VS.
  pose proof (desc_shape Rops pinit pst stale w (rc_cd _ _ _ _ _ _ _ _ _ _ _ _ _ RC)) as SH; rewrite (start_is RC) in SH.
  pose proof (desc_grammar Rops pinit pst stale w (rc_cd _ _ _ _ _ _ _ _ _ _ _ _ _ RC)) as SG; rewrite (start_is RC) in SG.
  pose proof (rmaster RC) as RM; cbv zeta in RM; rewrite (start_is RC) in RM.
  set (D0 := pdist P (pt_of x) s) in *. set (Sb := error_budget o) in *.
  set (Sm := total_error P o (start_ctx (start_at P x)) (sr_trace r)) in *.
  assert (PD0 : 0 <= D0) by apply pdist_pos.
  assert (PK := kappa_pos P _ _ Ha Hs). assert (PM := mu_pos _ Ha). assert (PF := fro_pos P).
  pose proof (ad_prox _ _ AD) as AP.
  assert (PQ : 0 < p_delta o / (1 - p_delta o)) by (apply Rdiv_lt_0_compat; lra).
  assert (IP : 0 <= IZR (p_max_prox o)) by (apply IZR_le; lia).
  pose proof (room_start call RC s bs TM) as R0.
  destruct (no_limits call RC s bs Cv BS AC EN _ _ _ SG [] eq_refl eq_refl R0) as (NL1 & NL2 & NL3). cbn [app] in NL1, NL2.
  rewrite EO in NL2. specialize (NL2 ltac:(discriminate)).
  (* the error budget *)
  specialize (BUD NL1). fold Sm in BUD.
  rewrite EO in RM. destruct RM as (_ & _ & X). cbn [exit_ok] in X.
  destruct X as (_ & XN & XP & XF).
  assert (CT : forall tr (c : ctx R), c_prox (fold_left upd tr c) = (c_prox c + Z.of_nat (count is_prox tr))%Z).
  { induction tr as [|g tr IH]; intro c; [rewrite count_nil; cbn [fold_left]; lia|]. cbn [fold_left]. rewrite IH, count_cons.
    destruct g; cbn [upd c_prox is_prox]; lia. }
  assert (NS : forall (l : list (ghost R)), Forall is_inner l -> count is_sub l = 0%nat /\ count is_prox l = 0%nat).
  { induction 1 as [|g l Hg Hl [IH1 IH2]]; [split; reflexivity|]. rewrite !count_cons, IH1, IH2. destruct g; try contradiction; split; reflexivity. }
  assert (SB : (forall fin (c : ctx R) xk tr, run_shape fin xk tr -> (0 <= c_prox c)%Z ->
    trace_ok Rops o (prob_of Rops DI d (n_z P) (n_l P) (n_v P) pinit pst o) (@vm P) (itol0_of Rops DI d (n_z P) (n_l P) (n_v P) o x pinit pst)
      (pones Rops (prob_of Rops DI d (n_z P) (n_l P) (n_v P) pinit pst o) (n_z P) (n_l P) (n_v P)) c tr ->
    (count is_prox tr <= count is_sub tr)%nat /\ (tr <> [] -> (c_prox c + Z.of_nat (count is_sub tr) <= p_max_prox o)%Z))).
  { intros fin c xk tr H. revert c. induction H as [xk|xk prev tol Ek l HF Hl|xk prev tol Ek l x1 HF Hl|xk prev tol Ek l x1 dx tr Hl Htr IH]; intros c Pc HE.
    - split; [cbn; lia|]. intro N; contradiction.
    - pose proof (HE [] _ _ eq_refl) as K. cbn [ev_ok fold_left] in K.
      rewrite !count_cons. destruct (NS _ Hl) as [-> ->]. cbn [is_prox is_sub]. split; [lia|]. intros _. lia.
    - pose proof (HE [] _ _ eq_refl) as K. cbn [ev_ok fold_left] in K.
      rewrite !count_cons, !count_app, !count_cons, !count_nil. destruct (NS _ Hl) as [-> ->]. cbn [is_prox is_sub]. split; [lia|]. intros _. lia.
    - pose proof (HE [] _ _ eq_refl) as K. cbn [ev_ok fold_left] in K.
      replace (GSub prev tol Ek xk :: l ++ GProject x1 :: GProx dx :: tr) with
        ((GSub prev tol Ek xk :: l ++ [GProject x1; GProx dx]) ++ tr) in HE by (cbn [app]; rewrite <- app_assoc; reflexivity).
      apply (evs_app (P:=P) (o:=o) (x:=x) (DI:=DI) (d:=d) (pinit:=pinit) (pst:=pst)) in HE.
      assert (CQ : c_prox (fold_left upd (GSub prev tol Ek xk :: l ++ [GProject x1; GProx dx]) c) = (c_prox c + 1)%Z).
      { rewrite CT, count_cons, count_app, !count_cons, count_nil. destruct (NS _ Hl) as [_ ->]. cbn [is_prox]. lia. }
      destruct (IH _ ltac:(rewrite CQ; lia) HE) as [J1 J2].
      rewrite !count_cons, !count_app, !count_cons. destruct (NS _ Hl) as [-> ->]. cbn [is_prox is_sub].
      split; [lia|]. intros _. destruct tr as [|g tr]; [rewrite count_nil; lia|].
      specialize (J2 ltac:(discriminate)). rewrite CQ in J2. lia. }
  destruct (SB _ (start_ctx (start_at P x)) _ _ SH ltac:(cbn; lia) EV) as [CNT1 CNT2].
  assert (CSP : INR (count is_sub (sr_trace r)) <= IZR (p_max_prox o)).
  { destruct (sr_trace r) as [|g t]; [rewrite count_nil; cbn [INR]; exact IP|].
    specialize (CNT2 ltac:(discriminate)). cbn [start_ctx c_prox] in CNT2. rewrite INR_IZR_INZ. apply IZR_le. lia. }
  assert (SMB : Sm <= Sb).
  { eapply Rle_trans; [exact BUD|]. unfold Sb, error_budget. apply Rplus_le_compat_l. apply Rmult_le_compat_r; lra. }
  assert (PSm : 0 <= Sm) by apply total_error_pos.
  assert (RADM : radius P o D0 Sm <= radius P o D0 Sb).
  { unfold radius. apply Rplus_le_compat_l. apply Rmult_le_compat_l; lra. }
  assert (FINAL : so_eflag out = SUCCESS -> pdist P (pt_of (sr_x r)) s <= radius P o D0 Sb).
  { intro F. specialize (IB (or_introl F)). fold (radius P o D0 Sm) in IB. lra. }
  (* the prox limit *)
  assert (NP : INR (count is_sub (sr_trace r)) < IZR (p_max_prox o)).
  { eapply Rle_lt_trans; [|exact (proj1 (proj2 EN))].
    assert (PR : 0 <= radius P o D0 Sb).
    { unfold radius. assert (0 <= (kappa_of P (p_alpha o) (p_sigma0 o) + mu_of (p_alpha o)) * Sb) by (apply Rmult_le_pos; lra). lra. }
    assert (PE : 0 <= (1 + fro P) * radius P o D0 Sb) by (apply Rmult_le_pos; lra).
    destruct BS as (KS & PB & BB).
    pose proof (run_count RC Ha Hs (entry_bound P o bs D0 Sb) _ _ _ ltac:(unfold entry_bound; lra) (tolerance_pos _ _ _ _ _ _ call) SH
                (start_ctx (start_at P x)) eq_refl EV) as K. lapply K; clear K; [intro K|].
    2:{ intros pre y post ET k Hk. specialize (NL3 _ _ _ ET). destruct (BB k Hk) as [B1 B2]. fold D0 Sb in NL3.
      assert (M1 := margin_near P (pt_of y) s k Hk). assert (M2 := dual_near P (pt_of y) s k Hk). cbn [pz pv pt_of] in M1, M2.
      assert (fro P * pdist P (pt_of y) s <= fro P * radius P o D0 Sb) by (apply Rmult_le_compat_l; assumption).
      assert (0 <= fro P * radius P o D0 Sb) by (apply Rmult_le_pos; assumption).
      unfold entry_bound. rewrite Rmult_plus_distr_r. lra. }
    cbv zeta in K. fold (weight P o bs D0 Sb) in K. fold Sm in K.
    unfold prox_needed. cbv zeta. set (W := weight P o bs D0 Sb / solve_tolerance P o) in *.
    assert (PW : 0 <= W).
    { unfold W. apply Rmult_le_pos; [|left; apply Rinv_0_lt_compat; exact (tolerance_pos _ _ _ _ _ _ call)].
      unfold weight. apply Rmult_le_pos; [unfold entry_bound; lra|apply sqrt_pos]. }
    assert (LP : 0 <= left_factor P o).
    { unfold left_factor. assert (0 <= mu_of (p_alpha o) * (fro P + 2 + p_sigma0 o)); [|lra]. apply Rmult_le_pos; lra. }
    eapply Rle_trans; [exact K|]. apply Rplus_le_compat; [apply Rplus_le_compat_l|].
    - apply Rmult_le_compat_l; [|exact SMB]. apply Rmult_le_pos; [lra|exact PW].
    - apply Rmult_le_compat_l; [apply Rle_0_sqr|]. eapply Rle_trans; [exact SQ|].
      apply sq_bound_le; assumption. }
  assert (NM : so_eflag out <> MAXITERATIONS).
  { intro F. destruct XF as [(F' & _)|[(_ & F' & _)|[(_ & F' & _)|(F' & _)]]].
    - rewrite F in F'. discriminate.
    - rewrite XN in F'. fold (after (start_at P x) (sr_trace r)) in NL2. lia.
    - rewrite F in XP. cbn [infeas] in XP. unfold after in XP. rewrite CT in XP. cbn [start_ctx c_prox] in XP.
      rewrite INR_IZR_INZ in NP. apply lt_IZR in NP. lia.
    - rewrite F in F'. discriminate. }
  split; [exact NM|]. split; [|exact FINAL].
  intro CF. destruct XF as [(F' & _)|[(F' & _)|[(F' & _)|(_ & F' & _)]]]; try contradiction; [exact F'|].
  rewrite CF in F'. discriminate.
Qed.
Print Assumptions C56_subproblems.
Print Assumptions C57_convergence.
