(* Solve calls in rounded arithmetic, with the problem they were given as an explicit QP over the reals:
   the coefficients are the exact values of the floating-point data. *)
From Verif Require Export MpcFloat2 PropsRun PropsOptions.
Local Open Scope R_scope.

Section FloatRun.
  Context {T : Type} (O : Ops T) (val : T -> R) (LA : LinAlg T).

  (* value of entry (i,j) of matrix k of a sequence: matrices one after the other, each column-major *)
  Definition cell_val (s : mapseq T) (k i j : nat) : R :=
    match mp_mem s with
    | None => 0
    | Some mem => val (nth (k * (Z.to_nat (mp_nr s) * Z.to_nat (mp_nc s)) + j * Z.to_nat (mp_nr s) + i) mem (o_zero O))
    end.
  Definition ocp_val (m : mpc_ref T) : OCP := {|
    oN := Z.to_nat (mp_N (m_B m)); onx := Z.to_nat (mp_nr (m_B m));
    onu := Z.to_nat (mp_nc (m_B m)); onc := Z.to_nat (mp_nr (m_E m));
    cQ := cell_val (m_Q m); cR := cell_val (m_R m); cS := cell_val (m_S m);
    cq := fun k i => cell_val (m_q m) k i 0; cr := fun k i => cell_val (m_r m) k i 0;
    oA := cell_val (m_A m); oB := cell_val (m_B m); oc := fun k i => cell_val (m_c m) k i 0;
    oE := cell_val (m_E m); oL := cell_val (m_L m); od := fun k i => cell_val (m_d m) k i 0;
    ox0 := fun i => val (nth i (m_x0 m) (o_zero O)) |}.

  (* r is the result of a Solve call, accepted by the size checks, on problem P with options o from the
     guess x, by either solver, after any history of calls on the solver object.  K counts roundings: an
     entry of the residuals goes through at most 4K. *)
  Inductive fsolves : QP -> nat -> params T -> var T -> T -> solve_result T -> Prop :=
  | fs_dense nz nl nv s qp d k x el :
      dense_reach O LA nz nl nv s ->
      DenseData_ctor O (Some (q_H qp)) (Some (q_f qp)) (Some (q_G qp)) (Some (q_h qp))
                       (Some (q_A qp)) (Some (q_b qp)) = Ok d ->
      dense_validate s d x = Ok tt -> y_fits k x (Z.to_nat nv) ->
      fsolves (qp_val (O:=O) (val:=val) (q_H qp) (q_f qp) (q_G qp) (q_h qp) (q_A qp) (q_b qp))
              (length (q_f qp) + length (q_h qp) + length (q_b qp) + 4) (ds_options s) x el
              (snd (FBstabDense_Solve O LA s qp k x el))
  | fs_mpc N nx nu nc s qp d k x el :
      mpc_reach O LA N nx nu nc s -> seqs_valid qp -> single_columns qp ->
      MpcData_ctor O qp = Ok d -> mpc_validate_inputs s d x = Ok tt ->
      fsolves (ocp_qp (ocp_val qp))
              ((Z.to_nat N + 1) * (3 * (Z.to_nat nx + Z.to_nat nu + Z.to_nat nc + 4))) (mps_options s) x el
              (snd (FBstabMpc_Solve O LA s qp k x el)).

  Lemma stg_cells_val s n r c k : seq_valid s -> sok s n r c -> (k < n)%nat ->
    forall i j, (i < r)%nat -> (j < c)%nat -> val (mget O (stg s k) i j) = cell_val s k i j.
  Proof.
    intros (V1 & V2 & V3 & V4 & V5) S Hk. destruct (sok_stg s n r c k S Hk) as (E & Er & Ec).
    unfold at_, mapseq_at in E.
    destruct ((Z.of_nat k <? 0)%Z || (mp_N s <=? Z.of_nat k)%Z) eqn:B; cbn [negb throw_unless rbind] in E; [discriminate|].
    destruct (mp_mem s) as [mem|] eqn:EM; [|discriminate].
    assert (HN : (0 < mp_N s)%Z). { apply orb_false_iff in B. rewrite Z.ltb_ge, Z.leb_gt in B. lia. }
    destruct (V5 HN) as (mem' & EM' & LM). injection EM' as <-.
    unfold view in E. apply rbind_ok in E. destruct E as (p & Ep & E). apply imul_ok in Ep.
    apply rbind_ok in E. destruct E as (off & Eo & E). apply imul_ok in Eo.
    apply rbind_ok in E. destruct E as ([] & Eu & E). injection E as E.
    assert (Hoff : Z.to_nat off = (k * (Z.to_nat (mp_nr s) * Z.to_nat (mp_nc s)))%nat).
    { subst off p. rewrite !Z2Nat.inj_mul by nia. rewrite Nat2Z.id. lia. }
    destruct (_ <=? _)%nat eqn:Lu in Eu; [|discriminate]. apply Nat.leb_le in Lu.
    rewrite <- E in Er, Ec |- *. cbn [mr mc me] in *.
    intros i j Hi Hj. unfold mget. cbn [mr me]. unfold cell_val. rewrite EM, <- Er, <- Ec in *.
    unfold vget. rewrite nth_firstn_lt by nia. rewrite nth_skipn, Hoff. f_equal. f_equal. lia.
  Qed.

  Section Build.
    Variables (qp : mpc_ref T) (d : mpc_data T).
    Hypothesis V : seqs_valid qp.
    Hypothesis C : single_columns qp.
    Hypothesis E : MpcData_ctor O qp = Ok d.
    Notation o := (ocp_val qp).
    Lemma mpc_built_val : mpc_ok d (oN o) (onx o) (onu o) (onc o) /\ describes_val O val d o.
    Proof.
      destruct (mpc_ctor_ok O qp d V C E) as (K & Em & E1 & E2 & E3 & E4).
      assert (F1 : md_N d = oN o) by (cbn; lia). assert (F2 : md_nx d = onx o) by (cbn; lia).
      assert (F3 : md_nu d = onu o) by (cbn; lia). assert (F4 : md_nc d = onc o) by (cbn; lia).
      rewrite F1, F2, F3, F4 in K. split; [exact K|].
      destruct K as [EN Ex Eu Ec Ez El Ev HQ HR HS Hq Hr HA HB Hc HE HL HD Hx0].
      destruct V as [VQ VR VS Vq Vr VA VB Vc VE VL Vd]. rewrite Em in *.
      constructor; auto; rewrite ?Em; intros.
      - apply (stg_cells_val _ _ _ _ k VQ HQ); assumption.
      - apply (stg_cells_val _ _ _ _ k VR HR); assumption.
      - apply (stg_cells_val _ _ _ _ k VS HS); assumption.
      - apply (stg_cells_val _ _ _ _ k Vq Hq); try assumption; lia.
      - apply (stg_cells_val _ _ _ _ k Vr Hr); try assumption; lia.
      - apply (stg_cells_val _ _ _ _ k VA HA); assumption.
      - apply (stg_cells_val _ _ _ _ k VB HB); assumption.
      - apply (stg_cells_val _ _ _ _ k Vc Hc); try assumption; lia.
      - apply (stg_cells_val _ _ _ _ k VE HE); assumption.
      - apply (stg_cells_val _ _ _ _ k VL HL); assumption.
      - apply (stg_cells_val _ _ _ _ k Vd HD); try assumption; lia.
      - reflexivity.
    Qed.
  End Build.

  Context {fin : T -> Prop} {u eta : R}.
  Hypothesis W : Rounded O fin val u eta.

  Lemma fzero_eq : o_eqb O (o_zero O) (o_zero O) = true.
  Proof. destruct (rd_zero _ _ _ _ _ W) as (F & V). apply (rd_eqb _ _ _ _ _ W); auto. Qed.

  (* a larger bound on the number of underflows *)
  Lemma approx_C D (DI : DataI T D) d P K C C' : Approx O fin val u eta DI d P K C -> C <= C' ->
    Approx O fin val u eta DI d P K C'.
  Proof.
    intros [c0 cH0 cGT0 cAT0 cG0 cA0 cf0 ch0 cb0] L.
    assert (NW : forall k c m a t, 0 <= c -> near (val:=val) (u:=u) (eta:=eta) k (c + C) m a t -> near (val:=val) (u:=u) (eta:=eta) k (c + C') m a t)
      by (intros k c m a t Hc N; eapply (near_weaken W); [exact N|lia|lra|lra]).
    constructor.
    - lra.
    - intros x y Lx Ly. destruct (cH0 x y Lx Ly) as (r & E & Lr & F & Q). exists r. repeat (split; [assumption|]).
      intros i Hi Fi. destruct (Q i Hi Fi) as (Fy & N). split; [exact Fy|]. intros k c m t Hc Ny. apply NW; auto.
    - intros x y Lx Ly. destruct (cGT0 x y Lx Ly) as (r & E & Lr & F & Q). exists r. repeat (split; [assumption|]).
      intros i Hi Fi. destruct (Q i Hi Fi) as (Fy & N). split; [exact Fy|]. intros k c m t Hc Ny. apply NW; auto.
    - intros x y Lx Ly. destruct (cAT0 x y Lx Ly) as (r & E & Lr & F & Q). exists r. repeat (split; [assumption|]).
      intros i Hi Fi. destruct (Q i Hi Fi) as (Fy & N). split; [exact Fy|]. intros k c m t Hc Ny. apply NW; auto.
    - intros x y Lx Ly. destruct (cG0 x y Lx Ly) as (r & E & Lr & Q). exists r. repeat (split; [assumption|]).
      intros i Hi Fi. destruct (Q i Hi Fi) as (Fy & N). split; [exact Fy|]. intros k c m t Hc Ny. apply NW; auto.
    - intros x y Lx Ly. destruct (cA0 x y Lx Ly) as (r & E & Lr & Q). exists r. repeat (split; [assumption|]).
      intros i Hi Fi. destruct (Q i Hi Fi) as (Fy & N). split; [exact Fy|]. intros k c m t Hc Ny. apply NW; auto.
    - intros y Ly. destruct (cf0 y Ly) as (r & E & Lr & Q). exists r. repeat (split; [assumption|]).
      intros i Hi Fi. destruct (Q i Hi Fi) as (Fy & N). split; [exact Fy|]. intros k c m t Hc Ny. apply NW; auto.
    - intros y Ly. destruct (ch0 y Ly) as (r & E & Lr & Q). exists r. repeat (split; [assumption|]).
      intros i Hi Fi. destruct (Q i Hi Fi) as (Fy & N). split; [exact Fy|]. intros k c m t Hc Ny. apply NW; auto.
    - intros a y Ly. destruct (cb0 a y Ly) as (r & E & Lr & Q). exists r. repeat (split; [assumption|]).
      intros i Hi Fi. destruct (Q i Hi Fi) as (Fa & Fy & N). split; [exact Fa|]. split; [exact Fy|]. intros k c m t Hc Ny. apply NW; auto.
  Qed.

  (* the y of a point is the margin b - A z up to rounding *)
  Definition slack_near (P : QP) (K : nat) (w : var T) : Prop := forall k, (k < n_v P)%nat -> fin (vget O (v_y w) k) ->
    near (val:=val) (u:=u) (eta:=eta) (2 * K) (4 * INR K) (mag_v P (fun i => val (vget O (v_z w) i)) k)
         (vget O (v_y w) k) (margin P (fun i => val (vget O (v_z w) i)) k).

  Lemma nr0 : near (val:=val) (u:=u) (eta:=eta) 0 0 0 (o_zero O) 0.
  Proof. destruct (rd_zero _ _ _ _ _ W) as (_ & V). split; [rewrite Rabs_R0; lra|]. rewrite V, Rminus_0_r, Rabs_R0. lra. Qed.

  Lemma dense_slack d al sg y yb rr : dense_ok d (length (dd_f d)) (length (dd_h d)) (length (dd_b d)) ->
    let P := dense_qp_val (O:=O) (val:=val) d in
    slack_near P (n_z P + n_l P + n_v P + 4) (d_pst O LA d (n_z P) (n_l P) (n_v P) al sg y yb rr).
  Proof.
    intros [Hr Hc Gr Gc Ar Ac Hf Hh Hb] P k Hk F. unfold d_pst, dense_step in F |- *. cbn [v_z v_y] in F |- *.
    cbn [n_z n_l n_v P dense_qp_val qp_val] in *.
    set (z := vseg O _ 0 (length (dd_f d))) in *. assert (Lz : length z = length (dd_f d)) by apply vseg_len.
    unfold vsub in F |- *. rewrite (vget_tab O) in F |- * by exact Hk.
    destruct (rd_sub _ _ _ _ _ W _ _ F) as (Fb & Fm & _).
    destruct (row_near W (dd_A d) z k _ _ Ar Ac Lz Hk Fm) as (_ & N).
    pose proof (pos_INR (length (dd_f d))) as I1. pose proof (pos_INR (length (dd_h d))) as I2. pose proof (pos_INR (length (dd_b d))) as I3.
    assert (N0 : near (val:=val) (u:=u) (eta:=eta) (length (dd_f d) + 1) 0 (Rabs (val (vget O (dd_b d) k))) (vget O (dd_b d) k) (val (vget O (dd_b d) k)))
      by (eapply (near_weaken W); [apply near_exact|lia|lra|lra]).
    assert (I4 : 0 <= 2 * INR (length (dd_f d))) by lra.
    pose proof (near_sub W _ _ _ _ _ _ _ _ _ (Rle_refl 0) I4 F N0 N) as N1.
    unfold mag_v, margin. cbn [n_z cA cb dense_qp_val qp_val].
    eapply (near_weaken W); [exact N1|lia| |apply Rle_refl]. rewrite !plus_INR. cbn [INR]. lra.
  Qed.

  Lemma approx_slack D (DI : DataI T D) d P K dz r1 r2 : Approx O fin val u eta DI d P K (2 * INR K) ->
    length dz = n_z P ->
    di_gemvA DI d dz (o_mone O) (o_one O) (vconst (n_v P) (o_zero O)) = Ok r1 -> di_axpyb DI d (o_one O) r1 = Ok r2 ->
    forall k, (k < n_v P)%nat -> fin (vget O r2 k) ->
      near (val:=val) (u:=u) (eta:=eta) (2 * K) (4 * INR K) (mag_v P (fun i => val (vget O dz i)) k) (vget O r2 k) (margin P (fun i => val (vget O dz i)) k).
  Proof.
    intros AP Lz E1 E2 k Hk F.
    destruct (ap_A _ _ _ _ _ _ _ _ _ _ AP dz (vconst (n_v P) (o_zero O)) Lz (vconst_len _ _)) as (q1 & Q1 & L1 & A1).
    rewrite E1 in Q1. injection Q1 as <-.
    destruct (ap_b _ _ _ _ _ _ _ _ _ _ AP (o_one O) r1 L1) as (q2 & Q2 & L2 & A2).
    rewrite E2 in Q2. injection Q2 as <-.
    destruct (A2 k Hk F) as (_ & F1 & N2). destruct (A1 k Hk F1) as (F0 & N1).
    unfold vconst in N1; rewrite (vget_tab O) in N1 by exact Hk. specialize (N1 0%nat 0 0 0 (Rle_refl 0) nr0).
    assert (CK : 0 <= 0 + 2 * INR K) by (pose proof (pos_INR K); lra).
    specialize (N2 _ _ _ _ CK N1). destruct (rd_one _ _ _ _ _ W) as (_ & V1). rewrite V1 in N2.
    replace (margin P _ k) with (0 - times (n_z P) (cA P) (fun i => val (vget O dz i)) k + 1 * cb P k) by (unfold margin; ring).
    eapply (near_weaken W); [exact N2|lia|pose proof (pos_INR K); lra|]. unfold mag_v. rewrite Rmult_1_l. lra.
  Qed.

  (* everything known about such a call *)
  Record fcall (P : QP) (K : nat) (o : params T) (x : var T) (el : T) (r : solve_result T)
         (D : Type) (DI : DataI T D) (d : D) pinit pst stale w : Prop := {
    fc_call : solve_call O LA D DI d (n_z P) (n_l P) (n_v P) o x el r;
    fc_ap : Approx O fin val u eta DI d P K (2 * INR K);
    fc_cd : call_desc O DI d (n_z P) (n_l P) (n_v P) o x el r pinit pst stale w;
    fc_K : (n_z P + n_l P + n_v P + 4 <= 4 * K)%nat;
    fc_y : forall al sg y yb rr, var_ok (n_z P) (n_l P) (n_v P) (pst al sg y yb rr) -> slack_near P K (pst al sg y yb rr) }.

  Lemma fsolves_fcall P K o x el r : fsolves P K o x el r ->
    exists D DI d pinit pst stale w, fcall P K o x el r D DI d pinit pst stale w.
  Proof.
    intros [nz nl nv s qp d k y e Hr Hc Hv Hy|N nx nu nc s qp d k y e Hr Hs Hc1 Hc Hv].
    - destruct (dense_desc O LA _ _ _ _ _ _ k _ e Hr Hc Hv Hy) as [DO CD].
      assert (SK := sc_dense O LA _ _ _ _ _ _ _ _ e Hr Hc Hv Hy).
      assert (Ed : d = mkDD (length (q_f qp)) (length (q_h qp)) (length (q_b qp)) (dd_fnorm d) (q_H qp) (q_G qp) (q_A qp) (q_f qp) (q_h qp) (q_b qp)).
      { pose proof Hc as Hc'. unfold DenseData_ctor in Hc'. cbn [arg rbind] in Hc'.
        do 3 (destruct (_ && _)%bool; cbn [throw_unless rbind] in Hc'; [|discriminate Hc']).
        injection Hc' as <-. reflexivity. }
      assert (Px : (0 < Z.to_nat nz)%nat) by (pose proof (dense_reach_inv _ _ _ _ _ _ Hr) as (_ & _ & _ & H & _); lia).
      assert (E1 : Z.to_nat nz = length (q_f qp)) by (destruct DO; rewrite <- do_f, Ed; reflexivity).
      assert (E2 : Z.to_nat nl = length (q_h qp)) by (destruct DO; rewrite <- do_h, Ed; reflexivity).
      assert (E3 : Z.to_nat nv = length (q_b qp)) by (destruct DO; rewrite <- do_b, Ed; reflexivity).
      rewrite E1, E2, E3 in CD, SK, DO. rewrite E1 in Px.
      pose proof (dense_approx W d _ _ _ DO Px) as AP.
      exists (dense_data T), (denseDI O), d. do 4 eexists. constructor; [exact SK| |exact CD|cbn [n_z n_l n_v qp_val]; lia|].
      2:{ intros al sg z zb rr _. assert (DO' : dense_ok d (length (dd_f d)) (length (dd_h d)) (length (dd_b d))) by (rewrite Ed; cbn [dd_f dd_h dd_b]; rewrite <- Ed; exact DO).
          pose proof (dense_slack d al sg z zb rr DO') as H. cbv zeta in H. rewrite Ed in H |- *. exact H. }
      eapply approx_C; [rewrite Ed in AP |- *; exact AP|]. rewrite !plus_INR. cbn [INR]. pose proof (pos_INR (length (q_f qp))). lra.
    - destruct (mpc_desc O LA fzero_eq _ _ _ _ _ _ _ k _ e Hr Hs Hc1 Hc Hv) as (MO & PO & E1 & E2 & E3 & CD).
      destruct (mpc_built_val qp d Hs Hc1 Hc) as (MO' & DS).
      assert (SK := sc_mpc O LA _ _ _ _ _ _ _ k _ e Hr Hs Hc1 Hc Hv).
      rewrite E1, E2, E3 in SK.
      assert (F1 : Z.to_nat N = oN (ocp_val qp)) by (destruct MO, MO'; congruence).
      assert (F2 : Z.to_nat nx = onx (ocp_val qp)) by (destruct MO, MO'; congruence).
      assert (F3 : Z.to_nat nu = onu (ocp_val qp)) by (destruct MO, MO'; congruence).
      assert (F4 : Z.to_nat nc = onc (ocp_val qp)) by (destruct MO, MO'; congruence).
      rewrite F1, F2, F3, F4 in *.
      exists (mpc_data T), (mpcDI O), d. do 4 eexists. constructor; [exact SK| |exact CD|cbn [n_z n_l n_v ocp_qp]; nia|].
      { apply (mpc_approx W d _ MO' DS). lia. }
      intros al sg z zb rr VO.
      pose proof (mpc_approx W d _ MO' DS ltac:(lia)) as AP.
      change (RiccatiOk.nz _ _ _) with (n_z (ocp_qp (ocp_val qp))) in *.
      revert VO. unfold m_pst. destruct (ric_vectors _ _ _ _ _ _ _) as [dz dl].
      intros (L1 & _). cbn [v_z] in L1. intros k' Hk' F. cbn [v_z v_y] in F |- *.
      change (RiccatiOk.nv _ _) with (n_v (ocp_qp (ocp_val qp))) in *.
      destruct (ap_A _ _ _ _ _ _ _ _ _ _ AP dz (vconst (n_v (ocp_qp (ocp_val qp))) (o_zero O)) L1 (vconst_len _ _)) as (q1 & Q1 & Lq1 & _).
      destruct (ap_b _ _ _ _ _ _ _ _ _ _ AP (o_one O) q1 Lq1) as (q2 & Q2 & _ & _).
      assert (Q1' : di_gemvA (mpcDI O) d dz (o_mone O) (o_zero O) (vconst (n_v (ocp_qp (ocp_val qp))) (o_zero O)) = Ok q1).
      { rewrite <- Q1. cbn [mpcDI di_gemvA]. unfold mpc_gemvA. rewrite (prescale_1 W). unfold prescale at 1. rewrite fzero_eq, vconst_len. reflexivity. }
      unfold gA, ab in F |- *. rewrite Q1' in F |- *. cbn [unres] in F |- *. rewrite Q2 in F |- *. cbn [unres] in F |- *.
      apply (approx_slack _ _ _ _ _ dz q1 q2 AP L1 Q1 Q2 k' Hk' F).
  Qed.
End FloatRun.
