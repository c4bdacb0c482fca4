(* Non-vacuity: concrete calls over the reals that meet the hypotheses of the theorems about
   exact arithmetic, and make proximal and Newton steps. *)
From Verif Require Export PropsProx PropsEquiv LAInstOk.
Local Open Scope R_scope.

Section Steps.
  Context (LA : LinAlg R) (P : QP) (o : params R) (x : var R) (el : R) (r : solve_result R).
  Hypothesis LL : LALaws LA.
  Hypothesis call : solves LA P o x el r.
  Hypothesis Cv : convex P.
  Hypothesis T1 : p_inner_tol_min o <= p_inner_tol_max o.
  Hypothesis T2 : p_inner_tol_min o <= solve_tolerance P o.
  (* the guess is not a solution: its gradient is above the tolerance *)
  Hypothesis G : solve_tolerance P o < sqrt (rsum (n_z P) (fun i =>
     lagr P (rg (v_z x)) (rg (v_l x)) (rg (v_v x)) i * lagr P (rg (v_z x)) (rg (v_l x)) (rg (v_v x)) i)).
  Hypothesis SS : p_stall_tol o < sqrt (INR (n_z P + n_l P + n_v P)).

  Lemma takes_proximal_step : exists prev tol Ek l y post,
    sr_trace r = GSub prev tol Ek (start_at P x) :: l ++ GProject y :: post /\ Forall is_inner l.
  Proof.
    destruct (C36_convex_never_throws _ _ _ _ _ _ LL call Cv T1 T2) as [out E].
    pose proof (solve_admissible _ _ _ _ _ _ call) as AD.
    destruct (solves_rcall _ _ _ _ _ _ call) as (D & DI & d & pinit & pst & stale & w & RC).
    pose proof (desc_shape Rops pinit pst stale w (rc_cd _ _ _ _ _ _ _ _ _ _ _ _ _ RC)) as SH.
    rewrite (start_is RC) in SH. pose proof (rmaster RC) as RM; cbv zeta in RM; rewrite (start_is RC) in RM.
    rewrite E in SH, RM. cbn [flag_out] in SH. destruct RM as (_ & _ & X). 
    inversion SH as [xk E1 E2|xk prev tol Ek l HF Hl E1 E2|xk prev tol Ek l y HF Hl E1 E2|xk prev tol Ek l y dx tr Hl Htr E1 E2].
    - exfalso. rewrite <- E2 in X. cbn [exit_ok] in X.
      pose proof (ad_newton _ _ AD) as A1. pose proof (ad_prox _ _ AD) as A2.
      destruct X as (_ & X1 & X2 & [(F & X & _)|[(F & N & _)|[(F & N & _)|(_ & _ & N & _)]]]).
      + destruct (C29_success_tolerance call out E F) as [K|K].
        * destruct (C29_solve_bounds call out E) as (K1 & _); [left; exact F|].
          rewrite X in K1. cbn [after fold_left start_ctx c_x start_at v_z v_l v_v] in K1. lra.
        * rewrite <- E2 in K. cbn [after fold_left start_ctx c_step] in K. lra.
      + cbn in X1. lia.
      + rewrite F in X2. cbn in X2. lia.
      + cbn in N. discriminate.
    - discriminate.
    - do 6 eexists. split; [reflexivity|exact Hl].
    - do 6 eexists. split; [reflexivity|exact Hl].
  Qed.

  (* the residual of the first subproblem at the guess is above the first tolerance *)
  Hypothesis G2 : Rmax (p_inner_tol_max o * p_delta o) (p_inner_tol_min o) <
                  inner_error P o (start_at P x) (start_at P x).
  Lemma takes_newton_step : exists pre xc dx cm m0 t j acc x' post,
    sr_trace r = pre ++ GStep xc dx cm m0 t j acc x' :: post.
  Proof.
    destruct takes_proximal_step as (prev & tol & Ek & l & y & post & ET & Hl).
    destruct (Exists_dec (fun g => exists xc dx cm m0 t j acc x', g = GStep xc dx cm m0 t j acc x') (sr_trace r)) as [H|H].
    { intros [ | | | |xc dx cm m0 t j acc x'| |]; try (right; intros (? & ? & ? & ? & ? & ? & ? & ? & K); discriminate).
      left. do 8 eexists. reflexivity. }
    { apply Exists_exists in H. destruct H as (g & HI & (xc & dx & cm & m0 & t & j & acc & x' & ->)).
      apply in_split in HI. destruct HI as (l1 & l2 & ET2). do 10 eexists. exact ET2. }
    exfalso. pose proof (solve_admissible _ _ _ _ _ _ call) as AD.
    destruct (delta_in _ _ _ _ _ _ call) as (D1 & D2 & _).
    destruct (solves_rcall _ _ _ _ _ _ call) as (D & DI & d & pinit & pst & stale & w & RC).
    pose proof (event_vm RC) as EV; rewrite (start_is RC) in EV.
    pose proof (vm_start RC) as VS; rewrite (start_is RC) in VS.
    pose proof (EV [] _ _ ET) as K0. cbn [ev_ok after fold_left] in K0.
    destruct K0 as (P1 & _ & _ & _ & _ & _ & _ & P2).
    pose proof (EV (GSub prev tol Ek (start_at P x) :: l) _ _ ET) as K1.
    unfold after in K1. cbn [fold_left] in K1.
    assert (NS : forall l, Forall is_inner l ->
       ~ Exists (fun g => exists xc dx cm m0 t j acc x', g = GStep xc dx cm m0 t j acc x') l ->
       forall c : ctx R, c_x (fold_left upd l c) = c_x c /\ c_center (fold_left upd l c) = c_center c /\
       c_merits (fold_left upd l c) = c_merits c /\ c_tol (fold_left upd l c) = c_tol c /\
       c_newton (fold_left upd l c) = (c_newton c + Z.of_nat (count is_lin l))%Z).
    { clear. induction 1 as [|g l Hg Hl IH]; intros N c; [cbn; rewrite Z.add_0_r; auto|]. cbn [fold_left].
      destruct (IH (fun K => N (Exists_cons_tl _ K)) (upd c g)) as (-> & -> & -> & -> & ->). rewrite count_cons.
      destruct g; try contradiction; cbn [upd c_x c_center c_merits c_tol c_newton is_lin]; repeat split; try lia.
      all: exfalso; apply N; apply Exists_cons_hd; do 8 eexists; reflexivity. }
    assert (NL : count is_lin l = 0%nat).
    { pose proof (grammar_steps Rops _ _ _ (desc_grammar Rops pinit pst stale w (rc_cd _ _ _ _ _ _ _ _ _ _ _ _ _ RC))) as E.
      rewrite (count_none is_step (sr_trace r)) in E.
      - rewrite ET, count_cons, count_app, count_cons in E. cbn [is_lin] in E. lia.
      - apply Forall_forall. intros g HI. destruct g; try reflexivity.
        exfalso. apply H. apply Exists_exists. eexists; split; [exact HI|]. do 8 eexists; reflexivity. }
    assert (HL : ~ Exists (fun g => exists xc dx cm m0 t j acc x', g = GStep xc dx cm m0 t j acc x') l).
    { intro K. apply H. rewrite ET. apply Exists_cons_tl. apply Exists_exists in K. destruct K as (g & Q1 & Q2).
      apply Exists_exists. exists g. split; [apply in_or_app; left; exact Q1|exact Q2]. }
    destruct (NS l Hl HL (upd (start_ctx (start_at P x)) (GSub prev tol Ek (start_at P x)))) as (N1 & N2 & N3 & N4 & N5).
    set (c := fold_left upd l _) in *. cbn [upd c_x c_center c_merits c_tol] in N1, N2, N3, N4.
    rewrite NL in N5. cbn [upd start_ctx c_newton] in N5.
    cbn [ev_ok] in K1. destruct K1 as (_ & _ & [K1|(_ & [K1|(tol' & K1 & K2)])]).
    - rewrite N3 in K1. cbn in K1. pose proof (ad_inner _ _ AD). lia.
    - pose proof (ad_newton _ _ AD). rewrite N5 in K1. cbn in K1. lia.
    - rewrite N4 in K1. injection K1 as <-. rewrite N1, N2 in K2.
      rewrite (error_is RC) in K2 by (exact VS || apply VS). 
      assert (TT : tol <= Rmax (p_inner_tol_max o * p_delta o) (p_inner_tol_min o)).
      { unfold saturate in P2. destruct (o_ltb _ _ _); [discriminate|]. injection P2 as P2.
        rewrite smax_R, smin_R in P2. rewrite <- P2, P1. unfold tol_of. cbn [start_ctx c_tol].
        unfold itol0_of, sat. rewrite smax_R, smin_R. cbn [o_mul Rops].
        apply Rmax_lub; [|apply Rmax_r]. eapply Rle_trans; [apply Rmin_l|].
        eapply Rle_trans; [|apply Rmax_l]. apply Rmult_le_compat_r; [lra|].
        apply Rmax_lub; [apply Rmin_r|exact T1]. }
      unfold inner_stop in K2. apply orb_prop in K2. destruct K2 as [K2|K2].
      + apply andb_prop in K2. destruct K2 as [K2 _]. apply Rleb_true in K2. lra.
      + apply Rleb_true in K2. assert (Q := Rmax_r (p_inner_tol_max o * p_delta o) (p_inner_tol_min o)). lra.
  Qed.
End Steps.

(* A lower bound on the first residual: the gradient at the guess. *)
Lemma start_error P (o : params R) x :
  sqrt (rsum (n_z P) (fun i => lagr P (rg (v_z x)) (rg (v_l x)) (rg (v_v x)) i *
                               lagr P (rg (v_z x)) (rg (v_l x)) (rg (v_v x)) i)) <=
  inner_error P o (start_at P x) (start_at P x).
Proof.
  unfold inner_error, nrm. apply sqrt_le_1_alt. unfold ip, sub_at; cbn [pz pl pv pt_of start_at v_z v_l v_v].
  assert (A : forall n f, 0 <= rsum n (fun i => f i * f i)) by (intros; apply rsum_nonneg; intros; apply Rle_0_sqr).
  match goal with |- ?a <= ?b + ?c + ?e => assert (E : b = a) end.
  { apply rsum_ext. intros i Hi. ring. }
  rewrite E. match goal with |- _ <= _ + ?c + ?e => assert (0 <= c) by apply A; assert (0 <= e) by apply A end. lra.
Qed.

(* ---------- dense: minimise x^2/2 - x - y, x = y, x + y <= 1, from zero ---------- *)
Definition qp2 : dense_qp R :=
  mkDQP (mkMat 2 2 [1;0;0;0]) [-1;-1] (mkMat 1 2 [1;-1]) [0] (mkMat 1 2 [1;1]) [1].
Definition P2 : QP := qp_of (q_H qp2) (q_f qp2) (q_G qp2) (q_h qp2) (q_A qp2) (q_b qp2).
Definition x2 : var R := mkVar [0;0] [0] [0] [0].
Definition s2 : pt := mkPt (fun _ => 1/2) (fun _ => -1/4) (fun _ => 3/4).
Lemma qp2_kkt : KKT P2 (pz s2) (pl s2) (pv s2).
Proof.
  split; [|split; [split|]]; cbn; intros [|[|k]] Hk; try lia; unfold lagr, times, ttimes, margin, times; cbn; try lra.
Qed.
Lemma qp2_convex : convex P2.
Proof.
  split; [|intros z0; unfold quad; cbn; nra]. cbn. intros [|[|i]] [|[|j]] Hi Hj; try lia; reflexivity.
Qed.

(* ---------- MPC: one step of x(k+1) = x(k) + u(k) from x(0) = 2, with u <= 1/2 ---------- *)
Definition rseq (n r c : Z) (l : list R) : mapseq R := mkMap n r c (n * r * c) (Some l).
Definition ocp3 : mpc_ref R :=
  mkMR (rseq 2 1 1 [1;1]) (rseq 2 1 1 [1;1]) (rseq 2 1 1 [0;0]) (rseq 2 1 1 [-1;-1])
       (rseq 2 1 1 [-1;-1]) (rseq 1 1 1 [1]) (rseq 1 1 1 [1]) (rseq 1 1 1 [0])
       (rseq 2 1 1 [0;0]) (rseq 2 1 1 [1;1]) (rseq 2 1 1 [-1/2;-1/2]) [2].
Ltac comp := cbv -[IZR Rplus Rmult Rminus Ropp Rdiv Rinv Rle Rlt lt].
Ltac comp_in H := cbv -[IZR Rplus Rmult Rminus Ropp Rdiv Rinv Rle Rlt lt] in H.
Definition P3 : QP := ocp_qp (ocp_of ocp3).
Definition x3 : var R := mkVar [0;0;0;0] [0;0] [0;0] [0;0].
Definition s3 : pt := mkPt (fun i => nth i [2;0;2;1/2] 0) (fun i => nth i [2;1] 0) (fun i => nth i [0;1/2] 0).
(* the same problem, written out for the dense solver *)
Definition qp3 : dense_qp R :=
  mkDQP (mkMat 4 4 [1;0;0;0; 0;1;0;0; 0;0;1;0; 0;0;0;1]) [-1;-1;-1;-1]
        (mkMat 2 4 [-1;1; 0;1; 0;-1; 0;0]) [-2;0] (mkMat 2 4 [0;0; 1;0; 0;0; 0;1]) [1/2;1/2].
Definition P3d : QP := qp_of (q_H qp3) (q_f qp3) (q_G qp3) (q_h qp3) (q_A qp3) (q_b qp3).
Lemma ocp3_valid : seqs_valid ocp3 /\ single_columns ocp3.
Proof.
  split; [|repeat split].
  assert (H : forall n l, (0 <= n)%Z -> in_int (n * 1 * 1) = true -> (n * 1 * 1 <= Z.of_nat (length l))%Z ->
              seq_valid (rseq n 1 1 l)).
  { intros n l H1 H2 H3. unfold seq_valid, rseq; cbn [mp_N mp_nr mp_nc mp_mem].
    repeat split; try lia; try exact H2. intros _. eexists. split; [reflexivity|]. exact H3. }
  constructor; apply H; cbn; lia || reflexivity.
Qed.
Lemma ocp3_same : same_qp P3 P3d.
Proof.
  unfold same_qp. cbn [P3 P3d ocp_qp qp_of n_z n_l n_v]. 
  repeat split; try reflexivity.
  - intros [|[|[|[|i]]]] [|[|[|[|j]]]] Hi Hj; comp_in Hi; comp_in Hj; try lia; comp; lra.
  - intros [|[|[|[|i]]]] Hi; comp_in Hi; try lia; comp; lra.
  - intros [|[|i]] [|[|[|[|j]]]] Hi Hj; comp_in Hi; comp_in Hj; try lia; comp; lra.
  - intros [|[|i]] Hi; comp_in Hi; try lia; comp; lra.
  - intros [|[|i]] [|[|[|[|j]]]] Hi Hj; comp_in Hi; comp_in Hj; try lia; comp; lra.
  - intros [|[|i]] Hi; comp_in Hi; try lia; comp; lra.
Qed.
Lemma ocp3_convex : stagewise_convex (ocp_of ocp3).
Proof.
  split; [|split].
  - intros [|[|k]] [|i] [|j] Hk Hi Hj; comp_in Hk; comp_in Hi; comp_in Hj; try lia; reflexivity.
  - intros [|[|k]] [|i] [|j] Hk Hi Hj; comp_in Hk; comp_in Hi; comp_in Hj; try lia; reflexivity.
  - intros [|[|k]] x u Hk; comp_in Hk; try lia; comp; nra.
Qed.
Lemma ocp3_kkt : KKT P3 (pz s3) (pl s3) (pv s3).
Proof.
  split; [|split; [split|]]; intros [|[|[|[|k]]]] Hk; comp_in Hk; try lia; comp; try lra.
Qed.

(* ---------- the runs ---------- *)
Definition dflt_R : params R := DefaultParameters Rops.
(* a run that returned, after at least one Newton step and one proximal step *)
Definition long_run (r : solve_result R) : Prop :=
  (exists out, sr_out r = Ok out) /\
  (exists prev tol Ek xb l y post, sr_trace r = GSub prev tol Ek xb :: l ++ GProject y :: post) /\
  (exists pre x dx cm m0 t j acc x' post, sr_trace r = pre ++ GStep x dx cm m0 t j acc x' :: post).
Lemma runs_long LA P x el r : LALaws LA -> solves LA P dflt_R x el r -> convex P -> (1 <= n_z P)%nat ->
  rsum (n_z P) (fun i => cf P i * cf P i) + rsum (n_l P) (fun i => ch P i * ch P i) +
  rsum (n_v P) (fun i => cb P i * cb P i) <= 100 ->
  1 <= rsum (n_z P) (fun i => lagr P (rg (v_z x)) (rg (v_l x)) (rg (v_v x)) i *
                              lagr P (rg (v_z x)) (rg (v_l x)) (rg (v_v x)) i) ->
  long_run r.
Proof.
  intros LL call Cv N F G.
  assert (T1 : p_inner_tol_min dflt_R <= p_inner_tol_max dflt_R) by (cbn; unfold Rdec; cbn; lra).
  assert (SF : sqrt (rsum (n_z P) (fun i => cf P i * cf P i) + rsum (n_l P) (fun i => ch P i * ch P i) +
              rsum (n_v P) (fun i => cb P i * cb P i)) <= 10).
  { replace 10 with (sqrt (10 * 10)) by (apply sqrt_square; lra). apply sqrt_le_1_alt. lra. }
  assert (SG : 1 <= sqrt (rsum (n_z P) (fun i => lagr P (rg (v_z x)) (rg (v_l x)) (rg (v_v x)) i *
                              lagr P (rg (v_z x)) (rg (v_l x)) (rg (v_v x)) i))).
  { rewrite <- sqrt_1 at 1. apply sqrt_le_1_alt. exact G. }
  pose proof (sqrt_pos (rsum (n_z P) (fun i => cf P i * cf P i) + rsum (n_l P) (fun i => ch P i * ch P i) +
              rsum (n_v P) (fun i => cb P i * cb P i))) as SP.
  assert (T2 : p_inner_tol_min dflt_R <= solve_tolerance P dflt_R < 1).
  { unfold solve_tolerance. cbn; unfold Rdec; cbn. lra. }
  assert (SS : p_stall_tol dflt_R < sqrt (INR (n_z P + n_l P + n_v P))).
  { apply Rlt_le_trans with 1; [cbn; unfold Rdec; cbn; lra|]. rewrite <- sqrt_1 at 1. apply sqrt_le_1_alt.
    replace 1 with (INR 1) by reflexivity. apply le_INR. lia. }
  split; [|split].
  - destruct T2. eapply C36_convex_never_throws; eassumption.
  - destruct (takes_proximal_step _ _ _ _ _ _ LL call Cv T1) as (prev & tol & Ek & l & y & post & E & _); try lra.
    do 7 eexists. exact E.
  - eapply (takes_newton_step _ _ _ _ _ _ LL call Cv T1); try lra.
    eapply Rlt_le_trans; [|apply start_error]. eapply Rlt_le_trans; [|exact SG].
    cbn; unfold Rdec; cbn. apply Rmax_lub_lt; lra.
Qed.

Lemma dense_witness LA : LALaws LA -> exists s r, 
  dense_reach Rops LA 2 1 1 s /\ r = snd (FBstabDense_Solve Rops LA s qp2 Mapped x2 0) /\
  solves LA P2 dflt_R x2 0 r /\ convex P2 /\ KKT P2 (pz s2) (pl s2) (pv s2) /\ long_run r.
Proof.
  intro LL. destruct (FBstabDense_new Rops g1 2 1 1) as [s|e|u] eqn:E; [|discriminate E|discriminate E].
  destruct (dense_new_inv Rops g1 2 1 1 s E) as [_ EO]. exists s.
  pose proof (sv_dense LA 2 1 1 s qp2 _ Mapped x2 0 (dr_new _ _ _ _ _ g1 s E) eq_refl) as K.
  rewrite EO in K. eexists. split; [eapply dr_new; exact E|]. split; [reflexivity|].
  assert (C : solves LA P2 dflt_R x2 0 (snd (FBstabDense_Solve Rops LA s qp2 Mapped x2 0))).
  { apply K; [injection E as <-; reflexivity|reflexivity]. }
  split; [exact C|]. split; [exact qp2_convex|]. split; [exact qp2_kkt|].
  eapply runs_long; [exact LL|exact C|exact qp2_convex|cbn; lia| |]; unfold lagr, times, ttimes; cbn; lra.
Qed.
Lemma mpc_witness LA : LALaws LA -> exists s r, 
  mpc_reach Rops LA 1 1 1 1 s /\ r = snd (FBstabMpc_Solve Rops LA s ocp3 Mapped x3 0) /\
  solves LA P3 dflt_R x3 0 r /\ convex P3 /\ KKT P3 (pz s3) (pl s3) (pv s3) /\ long_run r.
Proof.
  intro LL. destruct (FBstabMpc_new Rops g1 1 1 1 1) as [s|e|u] eqn:E; [|discriminate E|discriminate E].
  destruct (mpc_new_inv Rops g1 1 1 1 1 s E) as [_ EO]. exists s.
  pose proof (sv_mpc LA 1 1 1 1 s ocp3 _ Mapped x3 0 (mr_new _ _ _ _ _ _ g1 s E) (proj1 ocp3_valid) (proj2 ocp3_valid) eq_refl) as K.
  rewrite EO in K. eexists. split; [eapply mr_new; exact E|]. split; [reflexivity|].
  assert (C : solves LA P3 dflt_R x3 0 (snd (FBstabMpc_Solve Rops LA s ocp3 Mapped x3 0))).
  { apply K. injection E as <-; reflexivity. }
  assert (Cv : convex P3) by (apply C25_convex_iff; exact ocp3_convex).
  split; [exact C|]. split; [exact Cv|]. split; [exact ocp3_kkt|].
  eapply runs_long; [exact LL|exact C|exact Cv|comp; lia| |]; comp; lra.
Qed.

(* The textbook factorisations are one such linear algebra. *)
Theorem witness_dense : exists s r,
  dense_reach Rops (inst_la Rops) 2 1 1 s /\ r = snd (FBstabDense_Solve Rops (inst_la Rops) s qp2 Mapped x2 0) /\
  solves (inst_la Rops) P2 dflt_R x2 0 r /\ convex P2 /\ KKT P2 (pz s2) (pl s2) (pv s2) /\ long_run r.
Proof. exact (dense_witness _ inst_laws). Qed.
Theorem witness_mpc : exists s r,
  mpc_reach Rops (inst_la Rops) 1 1 1 1 s /\ r = snd (FBstabMpc_Solve Rops (inst_la Rops) s ocp3 Mapped x3 0) /\
  solves (inst_la Rops) P3 dflt_R x3 0 r /\ convex P3 /\ KKT P3 (pz s3) (pl s3) (pv s3) /\ long_run r.
Proof. exact (mpc_witness _ inst_laws). Qed.
(* C40 applies to them: the two solvers on the two forms of ocp3. *)
Theorem witness_equiv : exists s s',
  same_answer (snd (FBstabMpc_Solve Rops (inst_la Rops) s ocp3 Mapped x3 0))
              (snd (FBstabDense_Solve Rops (inst_la Rops) s' qp3 Owned x3 0)) /\
  long_run (snd (FBstabMpc_Solve Rops (inst_la Rops) s ocp3 Mapped x3 0)).
Proof.
  destruct (FBstabMpc_new Rops g1 1 1 1 1) as [s|e|u] eqn:E; [|discriminate E|discriminate E].
  destruct (mpc_new_inv Rops g1 1 1 1 1 s E) as [_ EO].
  destruct (FBstabDense_new Rops g1 4 2 2) as [s'|e|u] eqn:E'; [|discriminate E'|discriminate E'].
  destruct (dense_new_inv Rops g1 4 2 2 s' E') as [_ EO'].
  exists s, s'.
  assert (V : mpc_reach Rops (inst_la Rops) 1 1 1 1 s) by (eapply mr_new; exact E).
  assert (V' : dense_reach Rops (inst_la Rops) 4 2 2 s') by (eapply dr_new; exact E').
  split.
  - eapply C40_mpc_is_dense; [exact inst_laws|exact V|apply ocp3_valid|apply ocp3_valid|reflexivity| |exact V'|reflexivity| | | |exact ocp3_convex|exact ocp3_same].
    + injection E as <-. reflexivity.
    + injection E' as <-. reflexivity.
    + exact I.
    + exists (p_display (ds_options s')). rewrite EO, EO'. reflexivity.
  - assert (C : solves (inst_la Rops) P3 dflt_R x3 0 (snd (FBstabMpc_Solve Rops (inst_la Rops) s ocp3 Mapped x3 0))).
    { pose proof (sv_mpc (inst_la Rops) 1 1 1 1 s ocp3 _ Mapped x3 0 V (proj1 ocp3_valid) (proj2 ocp3_valid) eq_refl) as K.
      rewrite EO in K. apply K. injection E as <-; reflexivity. }
    assert (Cv : convex P3) by (apply C25_convex_iff; exact ocp3_convex).
    eapply runs_long; [exact inst_laws|exact C|exact Cv|comp; lia| |]; comp; lra.
Qed.
Print Assumptions witness_dense.
Print Assumptions witness_mpc.
Print Assumptions witness_equiv.
