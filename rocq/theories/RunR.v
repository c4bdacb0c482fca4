(* Solve calls over the reals, with the problem they were given as an explicit QP. *)
From Verif Require Export PropsKKT DenseR MpcExplicit.
Local Open Scope R_scope.

(* r is the result of a Solve call, accepted by the size checks, on problem P with options o
   from the guess x, by either solver, after any history of calls on the solver object *)
Inductive solves (LA : LinAlg R) : QP -> params R -> var R -> R -> solve_result R -> Prop :=
| sv_dense nz nl nv s qp d k x el :
    dense_reach Rops LA nz nl nv s ->
    DenseData_ctor Rops (Some (q_H qp)) (Some (q_f qp)) (Some (q_G qp)) (Some (q_h qp))
                        (Some (q_A qp)) (Some (q_b qp)) = Ok d ->
    dense_validate s d x = Ok tt -> y_fits k x (Z.to_nat nv) ->
    solves LA (qp_of (q_H qp) (q_f qp) (q_G qp) (q_h qp) (q_A qp) (q_b qp)) (ds_options s) x el
           (snd (FBstabDense_Solve Rops LA s qp k x el))
| sv_mpc N nx nu nc s qp d k x el :
    mpc_reach Rops LA N nx nu nc s -> seqs_valid qp -> single_columns qp ->
    MpcData_ctor Rops qp = Ok d -> mpc_validate_inputs s d x = Ok tt ->
    solves LA (ocp_qp (ocp_of qp)) (mps_options s) x el (snd (FBstabMpc_Solve Rops LA s qp k x el)).

Lemma R_zero_eq : o_eqb Rops (o_zero Rops) (o_zero Rops) = true.
Proof. apply Reqb_true. reflexivity. Qed.

(* the linear solver of the call *)
Inductive linsys (LA : LinAlg R) (P : QP) : forall D, DataI R D -> D ->
    (R -> R -> var R -> var R -> res bool) -> (R -> R -> var R -> var R -> rsd R -> var R) -> Prop :=
| lin_dense d : dense_ok d (n_z P) (n_l P) (n_v P) -> P = dense_qp_of d ->
    linsys LA P (dense_data R) (denseDI Rops) d (d_pinit Rops LA d (n_z P) (n_l P) (n_v P))
           (d_pst Rops LA d (n_z P) (n_l P) (n_v P))
| lin_mpc d o : mpc_ok d (oN o) (onx o) (onu o) (onc o) -> describes d o -> (1 <= onx o)%nat -> P = ocp_qp o ->
    linsys LA P (mpc_data R) (mpcDI Rops) d (m_pinit Rops LA d (oN o) (onx o) (onu o) (onc o))
           (m_pst Rops LA d (oN o) (onx o) (onu o) (onc o)).

(* everything known about such a call *)
Record rcall (LA : LinAlg R) (P : QP) (o : params R) (x : var R) (el : R) (r : solve_result R)
       (D : Type) (DI : DataI R D) (d : D) pinit pst stale w : Prop := {
  rc_call : solve_call Rops LA D DI d (n_z P) (n_l P) (n_v P) o x el r;
  rc_ex : Explicit DI d P;
  rc_cd : call_desc Rops DI d (n_z P) (n_l P) (n_v P) o x el r pinit pst stale w;
  rc_y : forall al sg y yb rr, var_ok (n_z P) (n_l P) (n_v P) (pst al sg y yb rr) ->
           y_is_margin P (pst al sg y yb rr);
  rc_lin : linsys LA P D DI d pinit pst }.

Lemma dense_pst_margin LA d P nz nl nv al sg y yb rr :
  Explicit (denseDI Rops) d P -> P = dense_qp_of d -> dense_ok d nz nl nv ->
  y_is_margin P (d_pst Rops LA d nz nl nv al sg y yb rr).
Proof.
  intros EX -> [Hr Hc Gr Gc Ar Ac Hf Hh Hb] k Hk. cbn [n_v dense_qp_of qp_of] in Hk.
  unfold d_pst, dense_step. cbn [v_z v_y].
  set (z := vseg Rops _ 0 nz). assert (Lz : length z = nz) by apply vseg_len.
  unfold vsub. rewrite Hb, (vget_tab Rops) by congruence. cbn [o_sub Rops].
  rewrite mv_entry by congruence. unfold margin, dense_qp_of, qp_of, times.
  cbn [n_z cA cb]. rewrite Ac, Hf. reflexivity.
Qed.

Lemma solves_rcall LA P o x el r : solves LA P o x el r ->
  exists D DI d pinit pst stale w, rcall LA P o x el r D DI d pinit pst stale w.
Proof.
  intros [nz nl nv s qp d k y e Hr Hc Hv Hy|N nx nu nc s qp d k y e Hr Hs Hc1 Hc Hv].
  - destruct (dense_desc Rops LA _ _ _ _ _ _ k _ e Hr Hc Hv Hy) as [DO CD].
    destruct (dense_explicit _ _ _ _ _ _ _ Hc) as [Ed EX].
    assert (K := sc_dense Rops LA _ _ _ _ _ _ _ _ e Hr Hc Hv Hy).
    assert (E1 : Z.to_nat nz = n_z (qp_of (q_H qp) (q_f qp) (q_G qp) (q_h qp) (q_A qp) (q_b qp))).
    { destruct DO. cbn. rewrite <- do_f. rewrite Ed. reflexivity. }
    assert (E2 : Z.to_nat nl = n_l (qp_of (q_H qp) (q_f qp) (q_G qp) (q_h qp) (q_A qp) (q_b qp))).
    { destruct DO. cbn. rewrite <- do_h. rewrite Ed. reflexivity. }
    assert (E3 : Z.to_nat nv = n_v (qp_of (q_H qp) (q_f qp) (q_G qp) (q_h qp) (q_A qp) (q_b qp))).
    { destruct DO. cbn. rewrite <- do_b. rewrite Ed. reflexivity. }
    rewrite E1, E2, E3 in CD, K, DO.
    exists (dense_data R), (denseDI Rops), d. do 4 eexists. constructor; [exact K|exact EX|exact CD| |].
    + intros al sg z zb rr _. apply dense_pst_margin; [exact EX| |exact DO]. rewrite Ed. reflexivity.
    + apply lin_dense; [exact DO|rewrite Ed; reflexivity].
  - destruct (mpc_desc Rops LA R_zero_eq _ _ _ _ _ _ _ k _ e Hr Hs Hc1 Hc Hv) as (MO & PO & E1 & E2 & E3 & CD).
    assert (EX := mpc_explicit qp d Hs Hc1 Hc).
    destruct (mpc_built qp d Hs Hc1 Hc) as (MO' & DS & _).
    assert (K := sc_mpc Rops LA _ _ _ _ _ _ _ k _ e Hr Hs Hc1 Hc Hv).
    rewrite E1, E2, E3 in K.
    assert (F1 : Z.to_nat N = oN (ocp_of qp)) by (destruct MO, MO'; congruence).
    assert (F2 : Z.to_nat nx = onx (ocp_of qp)) by (destruct MO, MO'; congruence).
    assert (F3 : Z.to_nat nu = onu (ocp_of qp)) by (destruct MO, MO'; congruence).
    assert (F4 : Z.to_nat nc = onc (ocp_of qp)) by (destruct MO, MO'; congruence).
    rewrite F1, F2, F3, F4 in *. 
    exists (mpc_data R), (mpcDI Rops), d. do 4 eexists. constructor; [exact K|exact EX|exact CD| |].
    2:{ apply lin_mpc; [exact MO'|exact DS|lia|reflexivity]. }
    intros al sg z zb rr VO. 
    change (RiccatiOk.nz _ _ _) with (n_z (ocp_qp (ocp_of qp))) in *.
    revert VO. unfold m_pst. destruct (ric_vectors _ _ _ _ _ _ _) as [dz dl].
    intros (L1 & _). cbn [v_z] in L1. intros k' Hk'. cbn [v_z v_y].
    change (RiccatiOk.nv _ _) with (n_v (ocp_qp (ocp_of qp))) in *.
    destruct (ex_A _ _ _ EX dz (o_mone Rops) (o_zero Rops) (vconst (n_v (ocp_qp (ocp_of qp))) (o_zero Rops)) L1
               (vconst_len _ _)) as (r1 & R1 & R2 & R3).
    destruct (ex_b _ _ _ EX 1 r1 R2) as (r2 & Q1 & Q2 & Q3).
    unfold gA, ab. rewrite R1. cbn [unres]. change (o_one Rops) with 1. rewrite Q1. cbn [unres].
    rewrite Q3, R3, rg_const by exact Hk'. unfold margin. cbn. lra.
Qed.

(* the guess with its constraint margin: the point where Solve starts *)
Definition start_at (P : QP) (x : var R) : var R :=
  mkVar (v_z x) (v_l x) (v_v x) (tab (n_v P) (fun k => margin P (rg (v_z x)) k)).

Section RunR.
  Context {LA : LinAlg R} {P : QP} {o : params R} {x : var R} {el : R} {r : solve_result R}
          {D : Type} {DI : DataI R D} {d : D} {pinit : R -> R -> var R -> var R -> res bool}
          {pst : R -> R -> var R -> var R -> rsd R -> var R} {stale : rsd R} {w : ws R}.
  Hypothesis RC : rcall LA P o x el r D DI d pinit pst stale w.
  Notation nz := (n_z P). Notation nl := (n_l P). Notation nv := (n_v P).
  Notation vok := (var_ok nz nl nv).
  Notation pb := (prob_of Rops DI d nz nl nv pinit pst o).
  Let EX := rc_ex _ _ _ _ _ _ _ _ _ _ _ _ _ RC.
  Let CD := rc_cd _ _ _ _ _ _ _ _ _ _ _ _ _ RC.

  Definition vm (y : var R) : Prop := vok y /\ y_is_margin P y.

  Lemma vm_axpy a y z : vm y -> vm z -> vm (pb_axpy pb a y z).
  Proof.
    intros [V1 M1] [V2 M2]. split; [apply (cl_axpy Rops _ _ _ _ _ _ _ _ _ _ _ _ _ CD); assumption|].
    intros k Hk. cbn [pb_axpy prob_of]. unfold paxpy. cbn [v_z v_y].
    destruct V1 as (A1 & A2 & A3 & A4). destruct V2 as (B1 & B2 & B3 & B4).
    destruct (ex_b _ _ _ EX (o_opp Rops a) (vaxpy Rops a (v_y y) (v_y z))) as (r2 & Q1 & Q2 & Q3).
    { autorewrite with vlen. exact B4. }
    unfold ab. rewrite Q1. cbn [unres]. rewrite Q3 by exact Hk.
    unfold vaxpy. rewrite B4, (vget_tab Rops) by exact Hk. cbn [o_add o_mul o_opp Rops].
    rewrite M1, M2 by exact Hk. unfold margin.
    assert (E : times nz (cA P) (rg (tab (length (v_z z)) (fun i => rg (v_z z) i + a * rg (v_z y) i))) k =
                times nz (cA P) (rg (v_z z)) k + a * times nz (cA P) (rg (v_z y)) k).
    { unfold times. rewrite <- rsum_scal, <- rsum_add. apply rsum_ext. intros i Hi.
      rewrite B1, (vget_tab Rops) by exact Hi. ring. }
    rewrite E. ring.
  Qed.
  Lemma vm_newton y yb dx : vm y -> vm yb ->
    pb_newton pb y yb (rsd_neg Rops (pb_inner pb y yb)) = Ok dx -> vm dx.
  Proof.
    intros [V1 M1] [V2 M2] E.
    assert (V : vok dx) by (apply (cl_newton Rops _ _ _ _ _ _ _ _ _ _ _ _ _ CD _ _ _ V1 V2 E)).
    split; [exact V|]. revert E. unfold pb_newton, prob_of, pnewton.
    destruct (pinit _ _ y yb) as [[|]|e|u]; try discriminate. intros [= <-].
    apply (rc_y _ _ _ _ _ _ _ _ _ _ _ _ _ RC). exact V.
  Qed.
  Lemma vm_proj y : vm y -> vm (proj_duals Rops y).
  Proof. intros [V M]. split; [apply proj_ok; exact V|exact M]. Qed.
  Lemma margin_is z : length z = nz -> forall k, (k < nv)%nat -> rg (pb_margin pb z) k = margin P (rg z) k.
  Proof.
    intros Hz k Hk. cbn [pb_margin prob_of]. unfold pmargin.
    destruct (ex_b _ _ _ EX 1 (vconst nv 0)) as (r1 & Q1 & Q2 & Q3); [apply vconst_len|].
    destruct (ex_A _ _ _ EX z (o_mone Rops) 1 r1 Hz Q2) as (r2 & R1 & R2 & R3).
    unfold gA, ab. cbn [o_one o_zero Rops] in *. rewrite Q1. cbn [unres]. rewrite R1. cbn [unres].
    rewrite R3, Q3, rg_const by exact Hk. unfold margin. cbn. lra.
  Qed.
  Lemma vm_start : vm (pstart pb x).
  Proof.
    split; [apply (cl_start Rops _ _ _ _ _ _ _ _ _ _ _ _ _ CD)|].
    intros k Hk. apply margin_is; [|exact Hk].
    destruct (cd_guess _ _ _ _ _ _ _ _ _ _ _ _ _ _ CD) as (A & B & C). exact A.
  Qed.
  Lemma start_is : pstart pb x = start_at P x.
  Proof.
    destruct vm_start as [(V1 & V2 & V3 & V4) M]. unfold start_at, pstart in *. cbn [v_z v_l v_v v_y] in *. f_equal.
    apply (vec_ext Rops); [rewrite tab_length; exact V4|]. intros k Hk. rewrite V4 in Hk.
    rewrite (vget_tab Rops) by exact Hk. apply (M k Hk).
  Qed.
  Lemma vm_feas w' y : ws_ok nz nl nv w' -> vm y -> ws_ok nz nl nv (fst (pb_feas pb w' y)).
  Proof. intros W [V _]. apply (cl_feas Rops _ _ _ _ _ _ _ _ _ _ _ _ _ CD); assumption. Qed.

  Definition rmaster := call_master_inv Rops _ _ _ _ _ _ _ _ _ _ _ _ _ CD vm vm_axpy vm_newton vm_proj vm_feas vm_start.

  Lemma result_vm out : sr_out r = Ok out -> vm (sr_x r).
  Proof.
    intro E. pose proof rmaster as M. cbv zeta in M. rewrite E in M. apply M.
  Qed.
  Lemma event_vm : forall pre g post, sr_trace r = pre ++ g :: post ->
    ev_ok Rops o pb vm (itol0_of Rops DI d nz nl nv o x pinit pst) (pones Rops pb nz nl nv) (after (pstart pb x) pre) g.
  Proof.
    intros pre g post ET. pose proof rmaster as CM. cbv zeta in CM.
    destruct (sr_out r) as [out|e|u]; [| |contradiction].
    - apply CM with post; exact ET.
    - destruct e; try (apply CM with post; exact ET).
      destruct CM as [_ [[_ CM]|CM]]; [rewrite CM in ET; destruct pre; discriminate|apply CM with post; exact ET].
  Qed.
End RunR.
