(* Concrete infeasible and unbounded problems on IEEE doubles: the hypotheses of C69 are met by both solvers. *)
From Verif Require Import PropsInfeas WitnessFloat WitnessGap BinOps Examples.
From Flocq Require Import Core.Core IEEE754.BinarySingleNaN.
Local Open Scope R_scope.

Section Calls.
  Context {T : Type} (O : Ops T) (fin : T -> Prop) (val : T -> R) (LA : LinAlg T).
  Lemma dcall_finite g nz nl nv o qp k x el (Q : params T -> solve_result T -> Prop) :
    dense_finite fin qp -> y_fits k x (Z.to_nat nv) ->
    match dcall O LA g nz nl nv o qp k x el with Some (d, o', r) => Q o' r | None => False end ->
    exists o' r, fsolves_finite O fin val LA Dense (qp_val (O:=O) (val:=val) (q_H qp) (q_f qp) (q_G qp) (q_h qp) (q_A qp) (q_b qp))
                         (length (q_f qp) + length (q_h qp) + length (q_b qp) + 4) o' x el r /\ Q o' r.
  Proof.
    intros Hf Hy. unfold dcall.
    destruct (FBstabDense_new O g nz nl nv) as [s|e|u] eqn:En; try contradiction.
    destruct (DenseData_ctor _ _ _ _ _ _ _) as [d|e|u] eqn:Ed; try contradiction.
    destruct (dense_validate _ _ _) as [[]|e|u] eqn:Ev; try contradiction. intro H.
    do 2 eexists. split; [|exact H]. eapply ff_dense; eauto. apply dr_update. eapply dr_new. exact En.
  Qed.
  Lemma mcall_finite g N nx nu nc o qp k x el (Q : params T -> solve_result T -> Prop) :
    mpc_finite fin qp -> seqs_valid qp -> single_columns qp ->
    match mcall O LA g N nx nu nc o qp k x el with Some (d, o', r) => Q o' r | None => False end ->
    exists o' r, fsolves_finite O fin val LA Mpc (ocp_qp (ocp_val O val qp))
                         ((Z.to_nat N + 1) * (3 * (Z.to_nat nx + Z.to_nat nu + Z.to_nat nc + 4)))%nat o' x el r /\ Q o' r.
  Proof.
    intros Hf Hs Hc. unfold mcall.
    destruct (FBstabMpc_new O g N nx nu nc) as [s|e|u] eqn:En; try contradiction.
    destruct (MpcData_ctor _ _) as [d|e|u] eqn:Ed; try contradiction.
    destruct (mpc_validate_inputs _ _ _) as [[]|e|u] eqn:Ev; try contradiction. intro H.
    do 2 eexists. split; [|exact H]. eapply ff_mpc; eauto. apply mr_update. eapply mr_new. exact En.
  Qed.
End Calls.

(* minimise z^2/2 subject to z <= -1, -z <= 0 *)
Definition qp_inf_B : dense_qp B64 :=
  mkDQP (bm_ 1 1 [1])%Z (bv_ [0])%Z (bm_ 0 1 []) (bv_ []) (bm_ 2 1 [1;-1])%Z (bv_ [-1;0])%Z.
(* x(1) = x(0), minimise -u(0) - u(1) subject to -u(i) <= 0 *)
Definition ocp_unb_B : mpc_ref B64 :=
  mkMR (bseq 2 1 1 [0;0])%Z (bseq 2 1 1 [0;0])%Z (bseq 2 1 1 [0;0])%Z (bseq 2 1 1 [0;0])%Z
       (bseq 2 1 1 [-1;-1])%Z (bseq 1 1 1 [1])%Z (bseq 1 1 1 [0])%Z (bseq 1 1 1 [0])%Z
       (bseq 2 1 1 [0;0])%Z (bseq 2 1 1 [-1;-1])%Z (bseq 2 1 1 [0;0])%Z (bv_ [2])%Z.

Definition small_num (a : B64) : bool := is_finite a && Bleb (Babs a) (Bdec 1 12).
Definition flagged (f : exit_flag) (o : params B64) (r : solve_result B64) : bool :=
  match sr_out r with
  | Ok out => match so_eflag out, f with PRIMAL_INFEASIBLE, PRIMAL_INFEASIBLE => true | DUAL_INFEASIBLE, DUAL_INFEASIBLE => true | _, _ => false end &&
      small_num (p_infeas_tol o) && forallb small_num (v_z (sr_x r)) && forallb small_num (v_l (sr_x r)) && forallb small_num (v_v (sr_x r))
  | _ => false
  end.

Lemma small_num_ok a : small_num a = true -> is_finite a = true /\ Rabs (B2R a) <= 2 ^ 50.
Proof.
  unfold small_num. rewrite andb_true_iff. intros (F & L). split; [exact F|].
  assert (F1 : Bfin (Babs a)) by (unfold Bfin; rewrite is_finite_Babs; exact F).
  assert (F2 : Bfin (Bdec 1 12)) by (vm_compute; reflexivity).
  apply (rd_leb _ _ _ _ _ Brounded) in L; [|exact F1|exact F2]. unfold Bval in L. rewrite B2R_Babs in L.
  assert (Q : B2SF (Bdec 1 12) = SpecFloat.S754_finite false 8192000000000000 (-13)) by (vm_compute; reflexivity).
  eapply Rle_trans; [exact L|].
  destruct (Bdec 1 12) as [s|s| |s m e Bq]; cbn [B2SF] in Q; try discriminate. injection Q as -> -> ->.
  unfold B2R, F2R. cbn [Fnum Fexp cond_Zopp]. unfold bpow. cbn. lra.
Qed.
Lemma small_nums v i : forallb small_num v = true -> is_finite (vget Bops v i) = true /\ Rabs (B2R (vget Bops v i)) <= 2 ^ 50.
Proof.
  intro H. rewrite forallb_forall in H. unfold vget. destruct (lt_dec i (length v)) as [L|L].
  - apply small_num_ok, H. apply nth_In. exact L.
  - rewrite nth_overflow by lia. split; [reflexivity|]. cbn. rewrite Rabs_R0. lra.
Qed.
Lemma finite_all v : forallb small_num v = true -> Forall (fun a => is_finite a = true) v.
Proof. intro H. rewrite forallb_forall in H. apply Forall_forall. intros a Ha. apply small_num_ok, H. exact Ha. Qed.

(* data and answer below 2^50, at most ten of each: the sums stay below 2^1022 *)
Definition small_qp (P : QP) : Prop :=
  (n_z P <= 10)%nat /\ (n_l P <= 10)%nat /\ (n_v P <= 10)%nat /\
  (forall i j, Rabs (cH P i j) <= 2 ^ 50 /\ Rabs (cG P i j) <= 2 ^ 50 /\ Rabs (cA P i j) <= 2 ^ 50) /\
  (forall i, Rabs (cf P i) <= 2 ^ 50 /\ Rabs (ch P i) <= 2 ^ 50 /\ Rabs (cb P i) <= 2 ^ 50).
Lemma small_sum n f : (n <= 10)%nat -> (forall i, f i <= 2 ^ 100) -> rsum n f <= 10 * 2 ^ 100.
Proof.
  intros Hn H. apply Rle_trans with (rsum n (fun _ => 2 ^ 100)); [apply rsum_le; intros; apply H|].
  rewrite rsum_const. apply le_INR in Hn. replace (INR 10) with 10 in Hn by (cbn; ring). apply Rmult_le_compat_r; lra.
Qed.
Lemma small_prod a b : Rabs a <= 2 ^ 50 -> Rabs b <= 2 ^ 50 -> Rabs (a * b) <= 2 ^ 100.
Proof. intros Ha Hb. rewrite Rabs_mult. replace (2 ^ 100) with (2 ^ 50 * 2 ^ 50) by (rewrite <- pow_add; reflexivity). apply Rmult_le_compat; auto using Rabs_pos. Qed.
Lemma M_room c : c <= 30 * 2 ^ 100 -> c <= 2 ^ 1022.
Proof.
  intro H. apply Rle_trans with (2 ^ 200); [|apply Rle_pow; [lra|lia]]. eapply Rle_trans; [exact H|].
  replace (2 ^ 200) with (2 ^ 100 * 2 ^ 100) by (rewrite <- pow_add; reflexivity). assert (30 <= 2 ^ 100) by lra. apply Rmult_le_compat_r; lra.
Qed.
Lemma small_max n f : (forall i, Rabs (f i) <= 2 ^ 50) -> 0 <= maxabs n f <= 2 ^ 50.
Proof. intro H. split; [apply maxabs_nonneg|]. apply maxabs_le; [lra|]. intros; apply H. Qed.
Lemma big_small : 2 ^ 50 <= 2 ^ 100. Proof. lra. Qed.
Lemma small_multipliers P tol l v : small_qp P -> 0 <= tol <= 2 ^ 50 -> (forall i, Rabs (l i) <= 2 ^ 50) -> (forall i, Rabs (v i) <= 2 ^ 50) ->
  moderate_multipliers P (2 ^ 1022) tol l v.
Proof.
  intros (N1 & N2 & N3 & H1 & H2) Ht Hl Hv. pose proof big_small as BS.
  constructor; intros; apply M_room; unfold ray_terms, value_terms, norm1.
  - pose proof (small_sum (n_l P) (fun j => Rabs (cG P j i * l j)) N2 ltac:(intro j; apply small_prod; [apply H1|apply Hl])).
    pose proof (small_sum (n_v P) (fun j => Rabs (cA P j i * v j)) N3 ltac:(intro j; apply small_prod; [apply H1|apply Hv])). lra.
  - destruct (H2 k) as (_ & X & _). lra.
  - destruct (H2 k) as (_ & _ & X). lra.
  - pose proof (small_sum (n_l P) (fun j => Rabs (ch P j * l j)) N2 ltac:(intro j; apply small_prod; [apply H2|apply Hl])).
    pose proof (small_sum (n_v P) (fun j => Rabs (cb P j * v j)) N3 ltac:(intro j; apply small_prod; [apply H2|apply Hv])). lra.
  - pose proof (small_sum (n_l P) (fun j => Rabs (l j)) N2 ltac:(intro j; specialize (Hl j); cbv beta; lra)).
    pose proof (small_sum (n_v P) (fun j => Rabs (v j)) N3 ltac:(intro j; specialize (Hv j); cbv beta; lra)). lra.
  - assert (X : Rmax (maxabs (n_v P) v) (maxabs (n_l P) l) <= 2 ^ 50) by (apply Rmax_lub; apply small_max; assumption).
    assert (X0 : 0 <= Rmax (maxabs (n_v P) v) (maxabs (n_l P) l)) by (eapply Rle_trans; [apply (maxabs_nonneg (n_v P) v)|apply Rmax_l]).
    assert (Y := small_prod tol _ ltac:(rewrite Rabs_pos_eq; [apply Ht|apply Ht]) ltac:(rewrite Rabs_pos_eq; [exact X|exact X0])).
    pose proof (Rle_abs (tol * Rmax (maxabs (n_v P) v) (maxabs (n_l P) l))). lra.
Qed.
Lemma small_direction P tol z : small_qp P -> 0 <= tol <= 2 ^ 50 -> (forall i, Rabs (z i) <= 2 ^ 50) -> moderate_direction P (2 ^ 1022) tol z.
Proof.
  intros (N1 & N2 & N3 & H1 & H2) Ht Hz. pose proof big_small as BS.
  constructor; intros; apply M_room; unfold norm1.
  - pose proof (small_sum (n_z P) (fun j => Rabs (cA P k j * z j)) N1 ltac:(intro j; apply small_prod; [apply H1|apply Hz])). lra.
  - pose proof (small_sum (n_z P) (fun j => Rabs (cG P k j * z j)) N1 ltac:(intro j; apply small_prod; [apply H1|apply Hz])). lra.
  - pose proof (small_sum (n_z P) (fun j => Rabs (cH P i j * z j)) N1 ltac:(intro j; apply small_prod; [apply H1|apply Hz])). lra.
  - destruct (H2 i) as (X & _). lra.
  - pose proof (small_sum (n_z P) (fun j => Rabs (cf P j * z j)) N1 ltac:(intro j; apply small_prod; [apply H2|apply Hz])). lra.
  - pose proof (small_sum (n_z P) (fun j => Rabs (z j)) N1 ltac:(intro j; specialize (Hz j); cbv beta; lra)). lra.
  - pose proof (small_max (n_z P) z Hz) as X.
    assert (Y := small_prod tol (maxabs (n_z P) z) ltac:(rewrite Rabs_pos_eq; [apply Ht|apply Ht]) ltac:(rewrite Rabs_pos_eq; apply X)).
    pose proof (Rle_abs (tol * maxabs (n_z P) z)). lra.
Qed.
Definition seq_small (s : mapseq B64) : bool := match mp_mem s with Some mem => forallb small_num mem | None => true end.
Lemma cell_small s k i j : seq_small s = true -> Rabs (cell_val Bops Bval s k i j) <= 2 ^ 50.
Proof.
  unfold seq_small, cell_val. destruct (mp_mem s) as [mem|]; intro H; [|rewrite Rabs_R0; lra]. apply (small_nums _ _ H).
Qed.
Lemma seq_small_finite s : seq_small s = true -> seq_finite (fun a : B64 => is_finite a = true) s.
Proof. unfold seq_small, seq_finite. destruct (mp_mem s); [apply finite_all|auto]. Qed.

Definition qp_inf_R : QP := qp_val (O:=Bops) (val:=Bval) (q_H qp_inf_B) (q_f qp_inf_B) (q_G qp_inf_B) (q_h qp_inf_B) (q_A qp_inf_B) (q_b qp_inf_B).
Definition ocp_unb_R : QP := ocp_qp (ocp_val Bops Bval ocp_unb_B).
Lemma qp_inf_small : small_qp qp_inf_R.
Proof.
  split; [cbn; lia|]. split; [cbn; lia|]. split; [cbn; lia|]. split.
  - intros i j. repeat split; apply small_nums; vm_compute; reflexivity.
  - intros i. repeat split; apply small_nums; vm_compute; reflexivity.
Qed.
Lemma ocp_unb_small : small_qp ocp_unb_R.
Proof.
  assert (S0 : Rabs 0 <= 2 ^ 50) by (rewrite Rabs_R0; lra). assert (S1 : Rabs (-1) <= 2 ^ 50) by (rewrite Rabs_left by lra; lra).
  assert (CS : forall s k i j, In s [m_Q ocp_unb_B; m_R ocp_unb_B; m_S ocp_unb_B; m_q ocp_unb_B; m_r ocp_unb_B; m_A ocp_unb_B; m_B ocp_unb_B; m_c ocp_unb_B; m_E ocp_unb_B; m_L ocp_unb_B; m_d ocp_unb_B] -> Rabs (cell_val Bops Bval s k i j) <= 2 ^ 50).
  { intros s k i j H. apply cell_small. revert s H. apply forallb_forall. vm_compute. reflexivity. }
  split; [cbn; lia|]. split; [cbn; lia|]. split; [cbn; lia|]. unfold ocp_unb_R, ocp_qp. cbn [cH cG cA cf ch cb].
  unfold stageH, stageAB, stageEL. split; intros.
  - repeat split; repeat (match goal with |- context [if ?b then _ else _] => destruct b end); try assumption; apply CS; cbn [In]; tauto.
  - split; [|split].
    + destruct (_ <? _)%nat; apply CS; cbn [In]; tauto.
    + destruct (_ / _)%nat; rewrite Rabs_Ropp; [apply small_nums; vm_compute; reflexivity|apply CS; cbn [In]; tauto].
    + rewrite Rabs_Ropp. apply CS; cbn [In]; tauto.
Qed.

Example C69_primal_example : exists K o r out,
  fsolves_finite Bops (fun a => is_finite a = true) B2R LAB Dense qp_inf_R K o (bx_ [0] [] [0;0] [])%Z (Bint 0) r /\ (Z.of_nat K <= 2 ^ 47)%Z /\
  sr_out r = Ok out /\ so_eflag out = PRIMAL_INFEASIBLE /\ is_finite (p_infeas_tol o) = true /\
  (forall i, is_finite (vget Bops (v_l (sr_x r)) i) = true) /\ (forall i, is_finite (vget Bops (v_v (sr_x r)) i) = true) /\
  moderate_multipliers qp_inf_R (2 ^ 1022) (B2R (p_infeas_tol o)) (fun i => B2R (vget Bops (v_l (sr_x r)) i)) (fun i => B2R (vget Bops (v_v (sr_x r)) i)).
Proof.
  edestruct (dcall_finite Bops (fun a => is_finite a = true) B2R LAB b0 1 0 2 dflt_B qp_inf_B Owned (bx_ [0] [] [0;0] [])%Z (Bint 0) (fun o r => flagged PRIMAL_INFEASIBLE o r = true)) as (o & r & H1 & H2).
  { repeat split; apply finite_all; vm_compute; reflexivity. } { exact I. } { vm_compute; reflexivity. }
  unfold flagged in H2. destruct (sr_out r) as [out|e|u] eqn:E; try discriminate. rewrite !andb_true_iff in H2. destruct H2 as ((((F & T1) & Z1) & L1) & V1).
  exists 7%nat, o, r, out. split; [exact H1|]. split; [vm_compute; discriminate|]. split; [exact E|].
  split; [destruct (so_eflag out); congruence|]. destruct (small_num_ok _ T1) as (T2 & T3). split; [exact T2|].
  split; [intro i; apply (small_nums _ i L1)|]. split; [intro i; apply (small_nums _ i V1)|].
  apply small_multipliers; [exact qp_inf_small| |intro i; apply (small_nums _ i L1)|intro i; apply (small_nums _ i V1)].
  destruct (finite_range Bops Bfin Bval LAB Brounded BinFwd.Branged _ _ _ _ _ _ _ H1) as (D & DI & d & C & [SC _ _ _ _ _ _ _]).
  pose proof (solve_itol_B _ _ _ _ _ _ _ _ _ _ _ SC T2) as T4. unfold Bval in T4. pose proof (Rle_abs (B2R (p_infeas_tol o))). lra.
Qed.
Example C69_dual_example : exists K o r out,
  fsolves_finite Bops (fun a => is_finite a = true) B2R LAB Mpc ocp_unb_R K o (bx_ [0;0;0;0] [0;0] [0;0] [0;0])%Z (Bint 0) r /\ (Z.of_nat K <= 2 ^ 47)%Z /\
  sr_out r = Ok out /\ so_eflag out = DUAL_INFEASIBLE /\ is_finite (p_infeas_tol o) = true /\
  (forall i, is_finite (vget Bops (v_z (sr_x r)) i) = true) /\
  moderate_direction ocp_unb_R (2 ^ 1022) (B2R (p_infeas_tol o)) (fun i => B2R (vget Bops (v_z (sr_x r)) i)).
Proof.
  assert (V : seqs_valid ocp_unb_B).
  { assert (H : forall n l, (0 <= n)%Z -> in_int (n * 1 * 1) = true -> (n * 1 * 1 <= Z.of_nat (length l))%Z -> seq_valid (bseq n 1 1 l)).
    { intros n l H1 H2 H3. unfold seq_valid, bseq; cbn [mp_N mp_nr mp_nc mp_mem].
      repeat split; try lia; try exact H2. intros _. eexists. split; [reflexivity|]. unfold bv_. rewrite map_length. exact H3. }
    constructor; apply H; cbn; lia || reflexivity. }
  edestruct (mcall_finite Bops (fun a => is_finite a = true) B2R LAB b0 1 1 1 1 dflt_B ocp_unb_B Owned (bx_ [0;0;0;0] [0;0] [0;0] [0;0])%Z (Bint 0) (fun o r => flagged DUAL_INFEASIBLE o r = true)) as (o & r & H1 & H2).
  { repeat split; first [apply seq_small_finite|apply finite_all]; vm_compute; reflexivity. } { exact V. } { repeat split. } { vm_compute; reflexivity. }
  unfold flagged in H2. destruct (sr_out r) as [out|e|u] eqn:E; try discriminate. rewrite !andb_true_iff in H2. destruct H2 as ((((F & T1) & Z1) & L1) & V1).
  exists 42%nat, o, r, out. split; [exact H1|]. split; [vm_compute; discriminate|]. split; [exact E|].
  split; [destruct (so_eflag out); congruence|]. destruct (small_num_ok _ T1) as (T2 & T3). split; [exact T2|].
  split; [intro i; apply (small_nums _ i Z1)|].
  apply small_direction; [exact ocp_unb_small| |intro i; apply (small_nums _ i Z1)].
  destruct (finite_range Bops Bfin Bval LAB Brounded BinFwd.Branged _ _ _ _ _ _ _ H1) as (D & DI & d & C & [SC _ _ _ _ _ _ _]).
  pose proof (solve_itol_B _ _ _ _ _ _ _ _ _ _ _ SC T2) as T4. unfold Bval in T4. pose proof (Rle_abs (B2R (p_infeas_tol o))). lra.
Qed.
