(* Concrete calls on IEEE doubles: the hypotheses of C63 and C64 are met by both solvers, and a SUCCESS
   whose z violates its constraint by 50000 times the tolerance. *)
From Verif Require Export PropsSlack.
From Verif Require Import BinOps Examples.
From Flocq Require Import Core.Core IEEE754.BinarySingleNaN.
Local Open Scope Z_scope.

Definition LAB : LinAlg B64 := inst_la Bops.
Definition bv_ (l : list Z) : vec B64 := map Bint l.
Definition bm_ (r c : nat) (l : list Z) : mat B64 := mtab r c (fun i j => Bint (nth (i * c + j)%nat l 0)).
Definition b0 : garbage B64 := mkGarbage (fun _ => Bint 0) (fun _ => Bint 0) (fun _ => Bint 0) (fun _ _ _ => Bint 0).
Definition bx_ (z l v y : list Z) : var B64 := mkVar (bv_ z) (bv_ l) (bv_ v) (bv_ y).
Definition dflt_B : params B64 := DefaultParameters Bops.
Definition with_rel_tol (rel : B64) (o : params B64) : params B64 :=
  mkParams (p_sigma0 o) (p_sigma_max o) (p_sigma_min o) (p_alpha o) (p_beta o) (p_eta o) (p_delta o)
    (p_gamma o) (p_abs_tol o) rel (p_stall_tol o) (p_infeas_tol o) (p_inner_tol_max o)
    (p_inner_tol_min o) (p_max_newton o) (p_max_prox o) (p_max_inner o) (p_max_ls o) (p_check_feas o) (p_nonmonotone o) (p_display o).

Section Calls.
  Context {T : Type} (O : Ops T) (val : T -> R) (LA : LinAlg T).
  Lemma dcall_fsolves g nz nl nv o qp k x el (Q : params T -> solve_result T -> Prop) :
    y_fits k x (Z.to_nat nv) ->
    match dcall O LA g nz nl nv o qp k x el with Some (d, o', r) => Q o' r | None => False end ->
    exists o' r, fsolves O val LA (qp_val (O:=O) (val:=val) (q_H qp) (q_f qp) (q_G qp) (q_h qp) (q_A qp) (q_b qp))
                         (length (q_f qp) + length (q_h qp) + length (q_b qp) + 4) o' x el r /\ Q o' r.
  Proof.
    intros Hy. unfold dcall.
    destruct (FBstabDense_new O g nz nl nv) as [s|e|u] eqn:En; try contradiction.
    destruct (DenseData_ctor _ _ _ _ _ _ _) as [d|e|u] eqn:Ed; try contradiction.
    destruct (dense_validate _ _ _) as [[]|e|u] eqn:Ev; try contradiction. intro H.
    do 2 eexists. split; [|exact H]. eapply fs_dense; eauto. apply dr_update. eapply dr_new. exact En.
  Qed.
  Lemma mcall_fsolves g N nx nu nc o qp k x el (Q : params T -> solve_result T -> Prop) :
    seqs_valid qp -> single_columns qp ->
    match mcall O LA g N nx nu nc o qp k x el with Some (d, o', r) => Q o' r | None => False end ->
    exists o' r, fsolves O val LA (ocp_qp (ocp_val O val qp))
                         ((Z.to_nat N + 1) * (3 * (Z.to_nat nx + Z.to_nat nu + Z.to_nat nc + 4)))%nat o' x el r /\ Q o' r.
  Proof.
    intros Hs Hc. unfold mcall.
    destruct (FBstabMpc_new O g N nx nu nc) as [s|e|u] eqn:En; try contradiction.
    destruct (MpcData_ctor _ _) as [d|e|u] eqn:Ed; try contradiction.
    destruct (mpc_validate_inputs _ _ _) as [[]|e|u] eqn:Ev; try contradiction. intro H.
    do 2 eexists. split; [|exact H]. eapply fs_mpc; eauto. apply mr_update. eapply mr_new. exact En.
  Qed.
End Calls.

(* returned SUCCESS with a finite residual below 1e-6, after Newton steps, with finite alpha *)
Definition good (nw px : Z) (o : params B64) (r : solve_result B64) : bool :=
  match sr_out r with
  | Ok out => match so_eflag out with SUCCESS => true | _ => false end && is_finite (so_residual out) && is_finite (p_alpha o) &&
              Bleb (so_residual out) (Bdec 1 (-6)) && (so_newton out =? nw) && (so_prox out =? px)
  | _ => false
  end.
Lemma good_ok nw px o r : good nw px o r = true -> exists out, sr_out r = Ok out /\ so_eflag out = SUCCESS /\
  is_finite (so_residual out) = true /\ is_finite (p_alpha o) = true /\ Bleb (so_residual out) (Bdec 1 (-6)) = true /\
  so_newton out = nw /\ so_prox out = px.
Proof.
  unfold good. destruct (sr_out r) as [out|e|u]; try discriminate. intro H. exists out.
  rewrite !andb_true_iff in H. destruct H as (((((H1 & H2) & H3) & H4) & H5) & H6).
  split; [reflexivity|]. split; [destruct (so_eflag out); congruence|]. repeat (split; [assumption|]).
  split; apply Z.eqb_eq; assumption.
Qed.

Definition qp_eq_B : dense_qp B64 :=
  mkDQP (bm_ 2 2 [4;1;1;2]) (bv_ [1;1]) (bm_ 1 2 [1;1]) (bv_ [1]) (bm_ 2 2 [-1;0;0;-1]) (bv_ [0;0]).
Lemma ex_dense_B : exists P K o r, n_z P = 2%nat /\ n_l P = 1%nat /\ n_v P = 2%nat /\ (Z.of_nat K <= 2 ^ 47)%Z /\
  fsolves Bops Bval LAB P K o (bx_ [0;0] [0] [0;0] []) (Bint 0) r /\ good 5 2 o r = true.
Proof.
  edestruct (dcall_fsolves Bops Bval LAB b0 2 1 2 dflt_B qp_eq_B Owned (bx_ [0;0] [0] [0;0] []) (Bint 0) (fun o r => good 5 2 o r = true)) as (o & r & H1 & H2);
    [exact I|vm_compute; reflexivity|].
  do 2 eexists. exists o, r. split; [|split; [|split; [|split; [|split; [exact H1|exact H2]]]]]; try reflexivity. vm_compute. discriminate.
Qed.

Definition bseq (n r c : Z) (l : list Z) : mapseq B64 := mkMap n r c (n * r * c) (Some (bv_ l)).
Definition ocp_B : mpc_ref B64 :=
  mkMR (bseq 3 1 1 [1;1;1]) (bseq 3 1 1 [1;1;1]) (bseq 3 1 1 [0;0;0]) (bseq 3 1 1 [0;0;0])
       (bseq 3 1 1 [1;1;1]) (bseq 2 1 1 [1;1]) (bseq 2 1 1 [1;1]) (bseq 2 1 1 [0;0])
       (bseq 3 1 1 [0;0;0]) (bseq 3 1 1 [-1;-1;-1]) (bseq 3 1 1 [0;0;0]) (bv_ [2]).
Lemma ocp_B_valid : seqs_valid ocp_B /\ single_columns ocp_B.
Proof.
  split; [|repeat split].
  assert (H : forall n l, 0 <= n -> in_int (n * 1 * 1) = true -> (n * 1 * 1 <= Z.of_nat (length l)) -> seq_valid (bseq n 1 1 l)).
  { intros n l H1 H2 H3. unfold seq_valid, bseq; cbn [mp_N mp_nr mp_nc mp_mem].
    repeat split; try lia; try exact H2. intros _. eexists. split; [reflexivity|]. unfold bv_. rewrite map_length. exact H3. }
  constructor; apply H; cbn; lia || reflexivity.
Qed.
Lemma ex_mpc_B : exists P K o r, n_z P = 6%nat /\ n_l P = 3%nat /\ n_v P = 3%nat /\ (Z.of_nat K <= 2 ^ 47)%Z /\
  fsolves Bops Bval LAB P K o (bx_ [0;0;0;0;0;0] [0;0;0] [0;0;0] [0;0;0]) (Bint 0) r /\ good 5 2 o r = true.
Proof.
  destruct ocp_B_valid as [V1 V2].
  edestruct (mcall_fsolves Bops Bval LAB b0 2 1 1 1 dflt_B ocp_B Owned (bx_ [0;0;0;0;0;0] [0;0;0] [0;0;0] [0;0;0]) (Bint 0) (fun o r => good 5 2 o r = true)) as (o & r & H1 & H2);
    [exact V1|exact V2|vm_compute; reflexivity|].
  do 2 eexists. exists o, r. split; [|split; [|split; [|split; [|split; [exact H1|exact H2]]]]]; try reflexivity. vm_compute. discriminate.
Qed.

(* minimise -1e9 z subject to z <= 0.1 *)
Definition qp_drift : dense_qp B64 :=
  mkDQP (bm_ 1 1 [0]) [Bdec (-1) 9] (bm_ 0 1 []) [] (bm_ 1 1 [1]) [Bdec 1 (-1)].
Definition drifted (o : params B64) (r : solve_result B64) : bool :=
  good 8 2 o r && match sr_out r with
  | Ok out => Bleb (so_residual out) (p_abs_tol o)
  | _ => false end && match B2SF (p_abs_tol o), B2SF (p_rel_tol o), v_z (sr_x r) with
  | SpecFloat.S754_finite false m e, SpecFloat.S754_zero false, [z] => (m =? 4722366482869645)%positive && (e =? -72) &&
      match B2SF z with SpecFloat.S754_finite false m e => (m =? 5404324338570880)%positive && (e =? -55) | _ => false end
  | _, _, _ => false
  end.
Local Open Scope R_scope.
Theorem C64_success_feasible_refuted : exists P K o x el r out,
  fsolves Bops Bval LAB P K o x el r /\ n_z P = 1%nat /\ n_l P = 0%nat /\ n_v P = 1%nat /\
  sr_out r = Ok out /\ so_eflag out = SUCCESS /\ is_finite (so_residual out) = true /\
  B2R (p_rel_tol o) = 0 /\ B2R (p_abs_tol o) <= 1 / 999999 /\ B2R (so_residual out) <= B2R (p_abs_tol o) /\
  times (n_z P) (cA P) (fun i => B2R (vget Bops (v_z (sr_x r)) i)) 0 - cb P 0 >= 1 / 25.
Proof.
  edestruct (dcall_fsolves Bops Bval LAB b0 1 0 1 (with_rel_tol (Bint 0) dflt_B) qp_drift Owned (bx_ [0] [] [0] [])%Z (Bint 0) (fun o r => drifted o r = true)) as (o & r & H1 & H2);
    [exact I|vm_compute; reflexivity|].
  unfold drifted in H2. rewrite !andb_true_iff in H2. destruct H2 as ((H2 & H3) & H4).
  destruct (good_ok _ _ _ _ H2) as (out & E & F & Fr & _ & _). rewrite E in H3.
  do 5 eexists. exists r, out. split; [exact H1|]. do 3 (split; [reflexivity|]). split; [exact E|]. split; [exact F|]. split; [exact Fr|].
  destruct (p_abs_tol o) as [s|s| |[|] m e B] eqn:Ea; cbn [B2SF] in H4; try discriminate.
  destruct (p_rel_tol o) as [[|]|s| |s m' e' B'] eqn:Er; cbn [B2SF] in H4; try discriminate.
  destruct (v_z (sr_x r)) as [|z [|]] eqn:Ez; try discriminate.
  rewrite !andb_true_iff in H4. destruct H4 as ((M1 & E1) & H4). apply Pos.eqb_eq in M1. apply Z.eqb_eq in E1. subst m e.
  destruct z as [s|s| |[|] mz ez Bz]; cbn [B2SF] in H4; try discriminate.
  rewrite andb_true_iff in H4. destruct H4 as (M1 & E1). apply Pos.eqb_eq in M1. apply Z.eqb_eq in E1. subst mz ez.
  split; [reflexivity|].
  assert (VA : B2R (B754_finite false 4722366482869645 (-72) B) <= 1 / 999999).
  { unfold B2R, F2R. cbn [Fnum Fexp cond_Zopp]. unfold bpow. cbn. lra. }
  split; [exact VA|]. split.
  { apply (rd_leb _ _ _ _ _ Brounded) in H3; [exact H3|exact Fr|reflexivity]. }
  change (0 + Bval (Bint 1) * B2R (B754_finite false 5404324338570880 (-55) Bz) - Bval (Bdec 1 (-1)) >= 1 / 25).
  destruct Bint1 as (_ & V1). rewrite V1.
  assert (V2 : Bval (Bdec 1 (-1)) <= 101 / 1000).
  { replace (Bdec 1 (-1)) with (Bdec 1 (-1)) by reflexivity. 
    pose (q := Bdec 1 (-1)). assert (Q : B2SF q = SpecFloat.S754_finite false 7205759403792794 (-56)) by (vm_compute; reflexivity).
    fold q. clearbody q. destruct q as [s|s| |s m e Bq]; cbn [B2SF] in Q; try discriminate. injection Q as -> -> ->.
    unfold Bval, B2R, F2R. cbn [Fnum Fexp cond_Zopp]. unfold bpow. cbn. lra. }
  assert (V3 : 149 / 1000 <= B2R (B754_finite false 5404324338570880 (-55) Bz)).
  { unfold B2R, F2R. cbn [Fnum Fexp cond_Zopp]. unfold bpow. cbn. lra. }
  lra.
Qed.

(* a run stopped after three Newton steps: C63_doubles_maxiter applies *)
Definition with_newton_limit (n : Z) (o : params B64) : params B64 :=
  mkParams (p_sigma0 o) (p_sigma_max o) (p_sigma_min o) (p_alpha o) (p_beta o) (p_eta o) (p_delta o)
    (p_gamma o) (p_abs_tol o) (p_rel_tol o) (p_stall_tol o) (p_infeas_tol o) (p_inner_tol_max o)
    (p_inner_tol_min o) n (p_max_prox o) (p_max_inner o) (p_max_ls o) (p_check_feas o) (p_nonmonotone o) (p_display o).
Definition stopped (o : params B64) (r : solve_result B64) : bool :=
  match sr_out r with
  | Ok out => match so_eflag out with MAXITERATIONS => true | _ => false end && is_finite (so_residual out) && is_finite (p_alpha o) &&
              (so_newton out =? 3)%Z && (so_prox out <? p_max_prox o)%Z
  | _ => false
  end.
Example C63_maxiter_example : exists P K o x el r out, n_z P = 2%nat /\ n_l P = 1%nat /\ n_v P = 2%nat /\ (Z.of_nat K <= 2 ^ 47)%Z /\
  fsolves Bops Bval LAB P K o x el r /\ sr_out r = Ok out /\ so_eflag out = MAXITERATIONS /\ (so_prox out < p_max_prox o)%Z /\
  is_finite (so_residual out) = true /\ is_finite (p_alpha o) = true.
Proof.
  edestruct (dcall_fsolves Bops Bval LAB b0 2 1 2 (with_newton_limit 3 dflt_B) qp_eq_B Owned (bx_ [0;0] [0] [0;0] [])%Z (Bint 0) (fun o r => stopped o r = true)) as (o & r & H1 & H2);
    [exact I|vm_compute; reflexivity|].
  unfold stopped in H2. destruct (sr_out r) as [out|e|u] eqn:E; try discriminate. rewrite !andb_true_iff in H2. destruct H2 as ((((F & H2) & H3) & _) & H4).
  do 5 eexists. exists r, out. split; [|split; [|split; [|split; [|split; [exact H1|]]]]]; try reflexivity; [vm_compute; discriminate|].
  split; [exact E|]. split; [destruct (so_eflag out); congruence|]. split; [apply Z.ltb_lt; exact H4|]. split; assumption.
Qed.
