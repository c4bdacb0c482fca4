(* C58: on a convex problem with a solution the line searches succeed if max_linesearch_iters is large
   enough, so the solver converges.  Exact arithmetic. *)
From Verif Require Export PropsConverge NewtonSize.
Local Open Scope R_scope.

(* ---------- specification ---------- *)
(* In a run from a guess at distance Dd of a solution and with residual E0: the inner iterates stay this
   close to the solution, *)
Definition inner_radius (P : QP) (o : params R) (bs Dd E0 : R) : R :=
  radius P o Dd (error_budget o) +
  (kappa_of P (p_alpha o) (p_sigma0 o) + mu_of (p_alpha o)) * (4 * residual_cap P o bs Dd E0).
(* their pairs (margin + sigma(v - vb), v) are at most this large, *)
Definition pair_size (P : QP) (o : params R) (bs Dd E0 : R) : R :=
  bs + (1 + fro P + 2 * p_sigma0 o) * inner_radius P o bs Dd E0.
(* a Newton step changes a pair by at most this, *)
Definition pair_move (P : QP) (o : params R) (bs Dd E0 : R) : R :=
  pair_growth P (p_alpha o) (p_sigma0 o) * (4 * residual_cap P o bs Dd E0).
(* and step lengths up to this one pass the test of the line search. *)
Definition safe_step (P : QP) (o : params R) (bs Dd E0 : R) : R :=
  let L := pair_growth P (p_alpha o) (p_sigma0 o) in
  (1 - p_eta o) / (1 + fb_curv (pair_size P o bs Dd E0) (pair_move P o bs Dd E0) * (L * L)).
(* The line search tries a step that short, and the inner tolerance is not below the error made by the
   fixed derivative the code uses for pairs closer than 1e-13 to the origin. *)
Definition searches_deep (P : QP) (o : params R) (bs Dd E0 : R) : Prop :=
  let B := pair_size P o bs Dd E0 in let L := pair_growth P (p_alpha o) (p_sigma0 o) in
  p_beta o ^ (Z.to_nat (p_max_ls o) - 1) <= safe_step P o bs Dd E0 /\
  2 * (3 + B) * zero_tolerance Rops * fb_lip B (pair_move P o bs Dd E0) * sqrt (INR (n_v P)) * L <=
    (1 - p_eta o) * p_inner_tol_min o.

(* ---------- proofs ---------- *)
(* whole steps *)
Inductive steps {T} (xb : var T) : var T -> list (ghost T) -> var T -> Prop :=
| st_nil x : steps xb x [] x
| st_cons x Ei Eo ms dx cm m0 t j acc x' l xe :
    Forall (fun g => exists xp mp, g = GMerit xp mp) ms -> steps xb x' l xe ->
    steps xb x (GInner x Ei Eo :: GLin x xb :: ms ++ GStep x dx cm m0 t j acc x' :: l) xe.
Lemma steps_run {T} (xb y z : var T) l : steps xb y l z -> inner_run xb y l z.
Proof. induction 1; [apply in_limit|apply in_step; assumption]. Qed.
Lemma steps_app {T} (xb y z xe : var T) l0 : steps xb y l0 z -> forall l1, steps xb z l1 xe -> steps xb y (l0 ++ l1) xe.
Proof.
  induction 1 as [|y Ei Eo ms dx cm m0 t j acc x' l xe' F H IH]; intros l1 H1; [exact H1|].
  specialize (IH _ H1).
  replace ((GInner y Ei Eo :: GLin y xb :: ms ++ GStep y dx cm m0 t j acc x' :: l) ++ l1) with
    (GInner y Ei Eo :: GLin y xb :: ms ++ GStep y dx cm m0 t j acc x' :: (l ++ l1)).
  - apply st_cons; assumption.
  - cbn [app]. rewrite <- app_assoc. reflexivity.
Qed.
Lemma all_accepted_app (l l' : list (ghost R)) : all_accepted l -> all_accepted l' -> all_accepted (l ++ l').
Proof.
  intros A B a1 a2 a3 a4 a5 a6 a7 a8 H. apply in_app_or in H. destruct H as [H|H]; [eapply A|eapply B]; exact H.
Qed.
Lemma all_accepted_cons g (l : list (ghost R)) : (forall x dx cm m0 t j acc x', g = GStep x dx cm m0 t j acc x' -> acc = true) ->
  all_accepted l -> all_accepted (g :: l).
Proof. intros A B a1 a2 a3 a4 a5 a6 a7 a8 [H|H]; [eapply A; exact H|eapply B; exact H]. Qed.

Section Run.
  Context {LA : LinAlg R} {P : QP} {o : params R} {x : var R} {el : R} {r : solve_result R}.
  Hypothesis call : solves LA P o x el r.
  Context {D : Type} {DI : DataI R D} {d : D} {pinit : R -> R -> var R -> var R -> res bool}
          {pst : R -> R -> var R -> var R -> rsd R -> var R} {stale : rsd R} {w : ws R}.
  Hypothesis RC : rcall LA P o x el r D DI d pinit pst stale w.
  Notation nz := (n_z P). Notation nl := (n_l P). Notation nv := (n_v P).
  Notation pb := (prob_of Rops DI d nz nl nv pinit pst o).
  Notation itol0 := (itol0_of Rops DI d nz nl nv o x pinit pst).
  Notation ones := (pones Rops pb nz nl nv).
  Notation al := (p_alpha o). Notation sg := (p_sigma0 o).
  Notation kap := (kappa_of P al sg). Notation mu := (mu_of al).
  Notation mn := (p_inner_tol_min o). Notation dl := (p_delta o).
  Notation start := (start_at P x).
  Variables (s : pt) (bs : R).
  Hypothesis LL : LALaws LA.
  Hypothesis Cv : convex P.
  Hypothesis BS : bounded_solution P bs s.
  Notation D0 := (pdist P (pt_of x) s).
  Notation E0 := (outer_error P o (pt_of x)).
  Notation Rb := (radius P o D0 (error_budget o)).
  Notation cap := (residual_cap P o bs D0 E0).
  Hypothesis EN : enough_iterations P o bs D0 E0.
  Hypothesis SD : searches_deep P o bs D0 E0.
  Notation Room := (room s bs (P:=P) (o:=o) (x:=x) (DI:=DI) (d:=d) (pinit:=pinit) (pst:=pst)).

  Lemma room_dist c : Room c -> pdist P (pt_of (c_x c)) s <= Rb.
  Proof.
    intros (_ & R1 & R2 & _ & R4 & _).
    destruct (delta_in _ _ _ _ _ _ call) as (Hd & Hm & _).
    assert (PK := kappa_pos P _ _ (solve_alpha _ _ _ _ _ _ call) (solve_sigma _ _ _ _ _ _ call)).
    assert (PM := mu_pos _ (solve_alpha _ _ _ _ _ _ call)).
    set (t := tol_of itol0 c) in *.
    assert (0 < dl / (1 - dl)) by (apply Rdiv_lt_0_compat; lra).
    assert (0 <= (t - mn) * (dl / (1 - dl))) by (apply Rmult_le_pos; lra).
    assert (0 <= IZR (p_max_prox o - c_prox c)) by (apply IZR_le; lia).
    assert (0 <= IZR (p_max_prox o - c_prox c) * mn) by (apply Rmult_le_pos; lra).
    assert (0 <= (kap + mu) * ((t - mn) * (dl / (1 - dl)) + IZR (p_max_prox o - c_prox c) * mn)) by (apply Rmult_le_pos; lra).
    lra.
  Qed.

  (* one Newton step *)
  Lemma step_accepted pre prev tol Ek xb l0 xc Ei Eo ms dx cm m0 t j acc x' rest :
    sr_trace r = pre ++ GSub prev tol Ek xb :: l0 ++ GInner xc Ei Eo :: GLin xc xb :: ms ++ GStep xc dx cm m0 t j acc x' :: rest ->
    Forall (fun g => exists xp mp, g = GMerit xp mp) ms ->
    xb = c_x (after start pre) -> inner_run xb xb l0 xc -> all_accepted l0 -> Room (after start pre) -> acc = true.
  Proof.
    intros ET Fm Exb IR ACl RM.
    pose proof (solve_admissible _ _ _ _ _ _ call) as AD. pose proof (solve_alpha _ _ _ _ _ _ call) as Ha.
    pose proof (solve_sigma _ _ _ _ _ _ call) as Hs.
    assert (He : 0 < p_eta o < 1).
    { pose proof (between_R _ _ _ (ad_eta _ _ AD)) as K. revert K. cbn. unfold Rdec; cbn. lra. }
    assert (Hb : 0 < p_beta o <= 1).
    { pose proof (between_R _ _ _ (ad_beta _ _ AD)) as K. revert K. cbn. unfold Rdec; cbn. lra. }
    pose proof (ad_ls _ _ AD) as Hls.
    destruct (C55_inner_progress _ _ _ _ _ _ call pre prev tol Ek xb l0 xc _ ET IR ACl) as (_ & I2 & I3 & I4 & _ & _).
    pose proof (event_vm RC) as EV; rewrite (start_is RC) in EV.
    set (c := after start pre) in *.
    pose proof (inner_run_inner _ _ _ _ IR) as Hl.
    set (pre1 := pre ++ GSub prev tol Ek xb :: l0 ++ [GInner xc Ei Eo]).
    set (pre2 := pre ++ GSub prev tol Ek xb :: l0 ++ GInner xc Ei Eo :: GLin xc xb :: ms).
    assert (ET1 : sr_trace r = pre1 ++ GLin xc xb :: (ms ++ GStep xc dx cm m0 t j acc x' :: rest)).
    { rewrite ET. unfold pre1. rewrite <- app_assoc. cbn [app]. rewrite <- app_assoc. reflexivity. }
    assert (ET2 : sr_trace r = pre2 ++ GStep xc dx cm m0 t j acc x' :: rest).
    { rewrite ET. unfold pre2. rewrite <- app_assoc. cbn [app]. rewrite <- app_assoc. cbn [app]. reflexivity. }
    pose proof (EV _ _ _ ET1) as KL. pose proof (EV _ _ _ ET2) as KS.
    assert (C2 : c_center (after start pre2) = xb).
    { unfold pre2, after. rewrite fold_left_app. cbn [fold_left]. rewrite fold_left_app. cbn [fold_left].
      destruct (inner_events (P:=P) (o:=o) ms ltac:(eapply Forall_impl; [|exact Fm]; intros g (? & ? & ->); exact I)
                 (upd (upd (fold_left upd l0 (upd c (GSub prev tol Ek xb))) (GInner xc Ei Eo)) (GLin xc xb))) as (Q & _).
      change (fold_left upd pre (start_ctx start)) with c. rewrite Q.
      change (c_center (fold_left upd l0 (upd c (GSub prev tol Ek xb))) = xb).
      destruct (inner_events (P:=P) (o:=o) l0 Hl (upd c (GSub prev tol Ek xb))) as (Q2 & _). rewrite Q2. reflexivity. }
    cbn [ev_ok] in KS. destruct KS as (_ & V1 & V2 & V3 & V4 & ms' & m' & S1 & S2 & S3 & S4 & S5 & S6 & S7 & S8 & S9 & S10 & S11).
    rewrite C2 in *.
    cbn [ev_ok] in KL. destruct KL as (_ & _ & _ & _ & _ & tl & _ & ST).
    unfold inner_stop in ST. apply orb_false_elim in ST. destruct ST as [_ ST]. apply Rleb_false in ST.
    rewrite (error_is RC xc xb V1 (proj1 V2)) in ST.
    destruct (inner_entries RC xc xb (proj1 V1) (proj1 V2)) as (_ & _ & _ & _ & EM).
    assert (NS := newton_direction RC xc xb dx LL Cv Ha Hs (proj1 V1) (proj1 V2) S1).
    pose proof (merit_is (pb_inner pb xc xb)) as MI. rewrite (error_is RC xc xb V1 (proj1 V2)), EM in MI.
    assert (RD := room_dist _ RM). rewrite <- Exb in RD. destruct RM as (_ & _ & _ & R3 & _). rewrite <- Exb in R3.
    set (F := inner_error P o xc xb) in *. assert (PF : 0 <= F) by apply nrm_pos.
    assert (Fc : F <= 4 * cap) by lra.
    destruct BS as (KS & Pbs & BB).
    assert (PK := kappa_pos P _ _ Ha Hs). assert (PM := mu_pos _ Ha). assert (Pf := fro_pos P).
    destruct (inexact_step P Cv al sg (pt_of xc) (pt_of xb) Ha Hs s KS) as [IS _]. cbv zeta in IS.
    change (nrm P (sub_at P al sg (pt_of xc) (pt_of xb))) with F in IS.
    set (u := clamp_duals (pt_of xc)) in *.
    set (rho := inner_radius P o bs D0 E0).
    assert (PRb : 0 <= Rb) by (assert (K := pdist_pos P (pt_of xb) s); lra).
    assert (KF : (kap + mu) * F <= (kap + mu) * (4 * cap)) by (apply Rmult_le_compat_l; lra).
    assert (PKF : 0 <= (kap + mu) * F) by (apply Rmult_le_pos; lra).
    assert (DU : pdist P u s <= rho) by (unfold rho, inner_radius; lra).
    assert (DX : pdist P (pt_of xb) s <= rho) by (unfold rho, inner_radius; lra).
    assert (Pr : 0 <= rho) by (assert (K := pdist_pos P (pt_of xb) s); lra).
    set (B := pair_size P o bs D0 E0).
    assert (HB : 0 <= B).
    { unfold B, pair_size. fold rho. assert (0 <= (1 + fro P + 2 * sg) * rho) by (apply Rmult_le_pos; lra). lra. }
    assert (BP : forall k, (k < nv)%nat -> rg (v_y xc) k + sg * (rg (v_v xc) k - rg (v_v xb) k) <= B /\ rg (v_v xc) k <= B).
    { intros k Hk. destruct (BB k Hk) as [B1 B2]. rewrite (proj2 V1 k Hk).
      assert (M1 := margin_near P u s k Hk). assert (M2 := dual_near P u s k Hk).
      assert (M3 := dual_near P u (pt_of xb) k Hk).
      unfold u in M1, M2, M3. cbn [clamp_duals pz pv pt_of] in M1, M2, M3. fold u in M1, M2, M3.
      assert (T := ProxSpec.triangle P u s (pt_of xb)). rewrite (pdist_sym P s) in T.
      assert (VM := Rmax_l (rg (v_v xc) k) 0).
      assert (fro P * pdist P u s <= fro P * rho) by (apply Rmult_le_compat_l; assumption).
      assert (0 <= fro P * rho) by (apply Rmult_le_pos; assumption).
      assert (sg * (rg (v_v xc) k - rg (v_v xb) k) <= sg * (2 * rho)) by (apply Rmult_le_compat_l; lra).
      assert (0 <= sg * rho) by (apply Rmult_le_pos; lra).
      unfold B, pair_size. fold rho. rewrite !Rmult_plus_distr_r. split; lra. }
    set (L := pair_growth P al sg). assert (PL : 0 < L) by (apply growth_pos; assumption).
    set (dm := pair_move P o bs D0 E0).
    assert (HD : L * F <= dm) by (unfold dm, pair_move; apply Rmult_le_compat_l; [fold L; lra|exact Fc]).
    assert (FF : F * F = 2 * merit_of P al sg xc xb) by lra.
    destruct SD as [SD1 SD2]. cbv zeta in SD1, SD2. fold B dm L in SD2. unfold safe_step in SD1. fold B dm L in SD1.
    destruct acc; [reflexivity|]. exfalso.
    set (i := (Z.to_nat (p_max_ls o) - 1)%nat) in *.
    specialize (S11 i ltac:(lia)). unfold armijo in S11.
    rewrite (axpy_line RC) in S11 by assumption.
    destruct (inner_entries RC (on_line P xc dx (beta_pow Rops o i (o_one Rops))) xb) as (_ & _ & _ & _ & EM').
    { rewrite <- (axpy_line RC) by assumption. apply (vm_axpy RC); assumption. }
    { exact (proj1 V2). }
    rewrite EM' in S11. change (o_one Rops) with 1 in S11. rewrite beta_pow_is, Rmult_1_l in S11.
    assert (PB : 0 < p_beta o ^ i) by (apply pow_lt; lra).
    assert (PB1 : p_beta o ^ i <= 1).
    { assert (K := pow_mono Hb 0 i ltac:(lia)). exact K. }
    set (q := p_beta o ^ i) in *.
    assert (P3 : 0 <= fb_curv B dm * (L * L)).
    { apply Rmult_le_pos; [|apply Rle_0_sqr]. assert (0 <= dm) by (assert (0 <= L * F) by (apply Rmult_le_pos; lra); lra).
      unfold fb_curv. assert (0 <= fb_mix B dm).
      { unfold fb_mix. assert (0 <= B * (1 + B)) by (apply Rmult_le_pos; lra). assert (0 <= (6 + B) * (B + dm)) by (apply Rmult_le_pos; lra). lra. }
      assert (K := Rle_0_sqr (2 * (2 + B) + fb_lip B dm)). unfold Rsqr in K. lra. }
    assert (M0 : cm <= m0).
    { rewrite S4. destruct (p_nonmonotone o); [|lra]. rewrite S3. unfold InsertMerit.
      change (firstn 5 (cm :: ?l)) with (cm :: firstn 4 l). cbn [MaxMerit].
      apply Rleb_true. apply (max_element_ge Rops ord_R).
      - apply Forall_forall. intros; exact I.
      - left; reflexivity. }
    assert (DEC : merit_of P al sg (on_line P xc dx q) xb <= merit_of P al sg xc xb - 2 * q * p_eta o * merit_of P al sg xc xb).
    { apply (short_steps P al sg xc xb dx Ha Hs Cv (proj2 V1) NS B dm F HB BP PF FF HD (p_eta o) q); [lra|lra| |].
      - apply (Rmult_le_compat_r (1 + fb_curv B dm * (L * L))) in SD1; [|lra].
        replace ((1 - p_eta o) / (1 + fb_curv B dm * (L * L)) * (1 + fb_curv B dm * (L * L))) with (1 - p_eta o) in SD1 by (field; lra).
        exact SD1.
      - eapply Rle_trans; [exact SD2|]. apply Rmult_le_compat_l; lra. }
    apply Rleb_false in S11. cbn [o_sub o_mul Rops] in S11.
    replace (o_two Rops) with 2 in S11 by (unfold o_two; cbn; lra).
    rewrite <- EM, <- S2 in DEC. lra.
  Qed.

  (* all steps of a subproblem *)
  Lemma sub_accepted pre prev tol Ek xb rest : xb = c_x (after start pre) -> Room (after start pre) ->
    forall y l xe, inner_run xb y l xe -> forall l0, steps xb xb l0 y -> all_accepted l0 ->
    sr_trace r = pre ++ GSub prev tol Ek xb :: l0 ++ l ++ rest -> all_accepted l.
  Proof.
    intros Exb RM. induction 1 as [y|y Ei Eo|y Ei Eo ms dx cm m0 t j acc x' l xe F H IH]; intros l0 ST AC ET.
    - intros a1 a2 a3 a4 a5 a6 a7 a8 [].
    - intros a1 a2 a3 a4 a5 a6 a7 a8 [E|[]]; discriminate.
    - assert (EA : acc = true).
      { apply (step_accepted pre prev tol Ek xb l0 y Ei Eo ms dx cm m0 t j acc x' (l ++ rest)); auto.
        - rewrite ET. cbn [app]. rewrite <- app_assoc. reflexivity.
        - apply steps_run. exact ST. }
      assert (A1 : all_accepted (GInner y Ei Eo :: GLin y xb :: ms ++ [GStep y dx cm m0 t j acc x'])).
      { apply all_accepted_cons; [intros; discriminate|]. apply all_accepted_cons; [intros; discriminate|].
        apply all_accepted_app.
        - intros a1 a2 a3 a4 a5 a6 a7 a8 HI. rewrite Forall_forall in F. destruct (F _ HI) as (? & ? & E). discriminate.
        - apply all_accepted_cons; [|intros a1 a2 a3 a4 a5 a6 a7 a8 []]. intros a1 a2 a3 a4 a5 a6 a7 a8 E. injection E; intros; congruence. }
      assert (EL : GInner y Ei Eo :: GLin y xb :: ms ++ GStep y dx cm m0 t j acc x' :: l =
                   (GInner y Ei Eo :: GLin y xb :: ms ++ [GStep y dx cm m0 t j acc x']) ++ l)
        by (cbn [app]; rewrite <- app_assoc; reflexivity).
      rewrite EL in *. apply all_accepted_app; [exact A1|].
      apply (IH (l0 ++ (GInner y Ei Eo :: GLin y xb :: ms ++ [GStep y dx cm m0 t j acc x']))).
      + eapply steps_app; [exact ST|]. apply st_cons; [exact F|apply st_nil].
      + apply all_accepted_app; assumption.
      + rewrite ET, <- !app_assoc. reflexivity.
  Qed.

  Lemma run_accepted fin xk tr : run_grammar Rops fin xk tr -> forall pre, sr_trace r = pre ++ tr ->
    c_x (after start pre) = xk -> Room (after start pre) -> all_accepted tr.
  Proof.
    induction 1 as [xk|xk prev tol Ek l xe Ei Eo HF IR|xk prev tol Ek l xe y HF IR PJ|xk prev tol Ek l xe y dx tr IR PJ RG IH];
      intros pre ET CX RM.
    - intros a1 a2 a3 a4 a5 a6 a7 a8 [].
    - apply all_accepted_cons; [intros; discriminate|].
      apply (sub_accepted pre prev tol Ek xk [] (eq_sym CX) RM xk (l ++ [GInner xe Ei Eo]) xe IR []); [apply st_nil| |].
      + intros a1 a2 a3 a4 a5 a6 a7 a8 [].
      + rewrite app_nil_r. exact ET.
    - apply all_accepted_cons; [intros; discriminate|]. apply all_accepted_app.
      + apply (sub_accepted pre prev tol Ek xk [GProject y] (eq_sym CX) RM xk l xe IR []); [apply st_nil| |exact ET].
        intros a1 a2 a3 a4 a5 a6 a7 a8 [].
      + apply all_accepted_cons; [intros; discriminate|intros a1 a2 a3 a4 a5 a6 a7 a8 []].
    - assert (ACl : all_accepted l).
      { apply (sub_accepted pre prev tol Ek xk (GProject y :: GProx dx :: tr) (eq_sym CX) RM xk l xe IR []); [apply st_nil| |exact ET].
        intros a1 a2 a3 a4 a5 a6 a7 a8 []. }
      subst xk. 
      destruct (one_subproblem call RC s bs Cv BS EN pre prev tol Ek l xe y (GProx dx :: tr) ET IR ACl RM) as (_ & _ & _ & _ & _ & O6).
      set (c := after start pre) in *.
      set (pre' := pre ++ GSub prev tol Ek (c_x c) :: l ++ [GProject y; GProx dx]).
      assert (EA : pre' ++ tr = pre ++ GSub prev tol Ek (c_x c) :: l ++ GProject y :: GProx dx :: tr).
      { unfold pre'. rewrite <- app_assoc. cbn [app]. rewrite <- app_assoc. reflexivity. }
      assert (CP : after start pre' = upd (upd (after start (pre ++ GSub prev tol Ek (c_x c) :: l)) (GProject y)) (GProx dx)).
      { unfold pre', after. rewrite !fold_left_app. cbn [fold_left]. rewrite fold_left_app. reflexivity. }
      apply all_accepted_cons; [intros; discriminate|]. apply all_accepted_app; [exact ACl|].
      apply all_accepted_cons; [intros; discriminate|]. apply all_accepted_cons; [intros; discriminate|].
      apply (IH pre').
      + rewrite EA. exact ET.
      + rewrite CP. reflexivity.
      + rewrite CP. apply O6.
  Qed.
End Run.

(* ---------------------------------------------------------------- C58 *)
(* A convex problem with a solution s, solved from any guess.  If the iteration limits leave room and the
   line search may go below the safe step length, every line search of the run succeeds. *)
Theorem C58_line_searches_succeed : forall LA P o x el r, LALaws LA -> solves LA P o x el r -> convex P ->
  forall s bs, bounded_solution P bs s -> p_inner_tol_min o <= p_inner_tol_max o ->
  let Dd := pdist P (pt_of x) s in let E0 := outer_error P o (pt_of x) in
  enough_iterations P o bs Dd E0 -> searches_deep P o bs Dd E0 ->
  forall y dx cm m0 t j acc y', In (GStep y dx cm m0 t j acc y') (sr_trace r) -> acc = true.
Proof.
  intros LA P o x el r LL call Cv s bs BS TM Dd E0 EN SD. 
  pose proof (solve_alpha _ _ _ _ _ _ call) as Ha. pose proof (solve_sigma _ _ _ _ _ _ call) as Hs.
  destruct (delta_in _ _ _ _ _ _ call) as (Hd & Hm & _). pose proof (ad_prox _ _ (solve_admissible _ _ _ _ _ _ call)) as AP.
  destruct (solves_rcall _ _ _ _ _ _ call) as (D & DI & d & pinit & pst & stale & w & RC).
  pose proof (vm_start RC) as VS; rewrite (start_is RC) in VS.
  pose proof (desc_grammar Rops pinit pst stale w (rc_cd _ _ _ _ _ _ _ _ _ _ _ _ _ RC)) as SG; rewrite (start_is RC) in SG.
  exact (run_accepted call RC s bs LL Cv BS EN SD _ _ _ SG [] eq_refl eq_refl
    (room_start call RC s bs TM)).
Qed.

(* So the solver converges: it returns, with SUCCESS unless it looks for infeasibility, at a point near s. *)
Theorem C58_convergence : forall LA P o x el r, LALaws LA -> solves LA P o x el r -> convex P ->
  forall s bs, bounded_solution P bs s ->
  p_inner_tol_min o <= p_inner_tol_max o -> p_inner_tol_min o <= solve_tolerance P o ->
  let Dd := pdist P (pt_of x) s in let E0 := outer_error P o (pt_of x) in
  enough_iterations P o bs Dd E0 -> searches_deep P o bs Dd E0 ->
  exists out, sr_out r = Ok out /\ so_eflag out <> MAXITERATIONS /\
    (p_check_feas o = false -> so_eflag out = SUCCESS) /\
    (so_eflag out = SUCCESS -> pdist P (pt_of (sr_x r)) s <= radius P o Dd (error_budget o)).
Proof.
  intros LA P o x el r LL call Cv s bs BS TM TS Dd E0 EN SD.
  destruct (C36_convex_never_throws _ _ _ _ _ _ LL call Cv TM TS) as (out & EO). exists out. split; [exact EO|].
  exact (C57_convergence _ _ _ _ _ _ call Cv s bs BS TM (C58_line_searches_succeed _ _ _ _ _ _ LL call Cv s bs BS TM EN SD) EN out EO).
Qed.
Print Assumptions C58_convergence.
