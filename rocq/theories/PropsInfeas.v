(* C69: what an infeasibility verdict certifies when the arithmetic rounds.  The general theorems hold for every
   arithmetic obeying Rounding.v and FwdFloat.v; the doubles theorems are their instance for IEEE binary64. *)
From Verif Require Export FeasFloat PropsFloat.
From Verif Require Import BinFwd.
From Flocq Require Import Core.Core IEEE754.BinarySingleNaN.
Local Open Scope R_scope.

(* ---------------------------------------------------------------- what the rays mean (exact problem) *)
Section Meaning.
  Variable P : QP.
  Notation nz := (n_z P). Notation nl := (n_l P). Notation nv := (n_v P).
  Lemma dot_rows n (a w e : nat -> R) : (forall i, (i < n)%nat -> Rabs (a i) <= e i) ->
    Rabs (rsum n (fun i => a i * w i)) <= rsum n (fun i => e i * Rabs (w i)).
  Proof.
    intro H. eapply Rle_trans; [apply rsum_abs|]. apply rsum_le. intros i Hi. rewrite Rabs_mult.
    apply Rmult_le_compat_r; [apply Rabs_pos|apply H; exact Hi].
  Qed.

  (* a feasible point w has to pay for the certificate: row errors times |w|, and negative multipliers times margins *)
  Theorem C69_primal_meaning : forall K g e tol l v w, primal_ray P K g e tol l v -> feasible P w ->
    - dual_value P l v <=
      rsum nz (fun i => rbound K g e (tol * Rmax (maxabs nv v) (maxabs nl l)) (ray_terms P l v i) * Rabs (w i)) +
      rsum nv (fun k => Rmax 0 (- v k) * margin P w k).
  Proof.
    intros K g e tol l v w [C1 C2] [F1 F2].
    assert (X := dot_rows nz (fun i => ttimes nl (cG P) l i + ttimes nv (cA P) v i) w _ C1).
    assert (X' := Rle_abs (- rsum nz (fun i => (ttimes nl (cG P) l i + ttimes nv (cA P) v i) * w i))).
    rewrite Rabs_Ropp in X'.
    assert (E : rsum nz (fun i => (ttimes nl (cG P) l i + ttimes nv (cA P) v i) * w i) =
                rsum nl (fun k => l k * times nz (cG P) w k) + rsum nv (fun k => v k * times nz (cA P) w k)).
    { rewrite <- !adjoint, <- rsum_add. apply rsum_ext. intros; ring. }
    cbv beta in X. rewrite E in X, X'. unfold dual_value.
    assert (E1 : rsum nl (fun k => l k * times nz (cG P) w k) = rsum nl (fun k => ch P k * l k)).
    { apply rsum_ext. intros k Hk. rewrite (F1 k Hk). ring. }
    assert (E2 : rsum nv (fun k => v k * times nz (cA P) w k) <=
                 rsum nv (fun k => cb P k * v k) + rsum nv (fun k => Rmax 0 (- v k) * margin P w k)).
    { rewrite <- rsum_add. apply rsum_le. intros k Hk. specialize (F2 k Hk). unfold margin.
      destruct (Rle_dec 0 (v k)).
      - rewrite Rmax_left by lra. nra.
      - rewrite Rmax_right by lra. nra. }
    lra.
  Qed.
  (* nonnegative multipliers and a certificate value below the row errors: no feasible point in the box |w_i| <= rho *)
  Theorem C69_no_feasible_point : forall K g e tol l v rho, primal_ray P K g e tol l v ->
    (forall k, (k < nv)%nat -> 0 <= v k) ->
    rho * rsum nz (fun i => rbound K g e (tol * Rmax (maxabs nv v) (maxabs nl l)) (ray_terms P l v i)) < - dual_value P l v ->
    forall w, (forall i, (i < nz)%nat -> Rabs (w i) <= rho) -> ~ feasible P w.
  Proof.
    intros K g e tol l v rho C V B w Hw F. pose proof (C69_primal_meaning _ _ _ _ _ _ _ C F) as X.
    rewrite (rsum_zero nv (fun k => Rmax 0 (- v k) * margin P w k)) in X.
    2:{ intros k Hk. specialize (V k Hk). rewrite Rmax_left by lra. ring. }
    destruct C as [C1 _]. assert (Y : rsum nz (fun i => rbound K g e (tol * Rmax (maxabs nv v) (maxabs nl l)) (ray_terms P l v i) * Rabs (w i)) <=
      rho * rsum nz (fun i => rbound K g e (tol * Rmax (maxabs nv v) (maxabs nl l)) (ray_terms P l v i))).
    { rewrite <- rsum_scal. apply rsum_le. intros i Hi. cbv beta. rewrite (Rmult_comm rho).
      apply Rmult_le_compat_l; [|apply Hw; exact Hi]. eapply Rle_trans; [apply Rabs_pos|apply C1; exact Hi]. }
    lra.
  Qed.

  Hypothesis sym : forall i j, (i < nz)%nat -> (j < nz)%nat -> cH P i j = cH P j i.
  (* moving from a feasible point w along the ray: violation of the constraints, change of the objective *)
  Theorem C69_dual_meaning : forall K g e tol small z w t, 0 <= t -> dual_ray P K g e tol small z -> feasible P w ->
    let rb M k := rbound K g e (tol * maxabs nz z) (rsum nz (fun j => Rabs (M k j * z j))) in
    let w' := fun i => w i + t * z i in
    (forall k, (k < nv)%nat -> times nz (cA P) w' k <= cb P k + t * rb (cA P) k) /\
    (forall k, (k < nl)%nat -> Rabs (times nz (cG P) w' k - ch P k) <= t * rb (cG P) k) /\
    objective P w' <= objective P w + t * rsum nz (fun i => cf P i * z i) +
      rsum nz (fun i => rb (cH P) i * (t * Rabs (w i) + t * t / 2 * Rabs (z i))).
  Proof.
    intros K g e tol small z w t Ht [CA CG CH Cf _] [F1 F2] rb w'.
    assert (TM : forall (M : nat -> nat -> R) k, times nz M w' k = times nz M w k + t * times nz M z k).
    { intros M k. unfold times, w'. rewrite <- rsum_scal, <- rsum_add. apply rsum_ext. intros; ring. }
    split; [|split].
    - intros k Hk. rewrite TM. specialize (CA k Hk). specialize (F2 k Hk).
      assert (X : t * times nz (cA P) z k <= t * rb (cA P) k) by (apply Rmult_le_compat_l; assumption). lra.
    - intros k Hk. rewrite TM, (F1 k Hk). replace (ch P k + t * times nz (cG P) z k - ch P k) with (t * times nz (cG P) z k) by ring.
      rewrite Rabs_mult, (Rabs_right t) by lra. specialize (CG k Hk). apply Rmult_le_compat_l; assumption.
    - unfold objective.
      assert (Q := quad_expand nz (cH P) w z t sym). fold (quad P w) in Q.
      change (rsum nz (fun i => rsum nz (fun j => (w i + t * z i) * cH P i j * (w j + t * z j)))) with (quad P w') in Q.
      rewrite Q.
      assert (E1 : rsum nz (fun i => z i * rsum nz (fun j => cH P i j * w j)) = rsum nz (fun i => times nz (cH P) z i * w i)).
      { rewrite <- (H_adj P sym). apply rsum_ext. intros; unfold times; ring. }
      assert (E2 : rsum nz (fun i => cf P i * w' i) = rsum nz (fun i => cf P i * w i) + t * rsum nz (fun i => cf P i * z i)).
      { rewrite <- rsum_scal, <- rsum_add. apply rsum_ext. intros; unfold w'; ring. }
      assert (E3 : rsum nz (fun i => rsum nz (fun j => z i * cH P i j * z j)) = rsum nz (fun i => times nz (cH P) z i * z i)).
      { apply rsum_ext. intros i Hi. unfold times. rewrite <- rsum_scal_r. apply rsum_ext. intros; ring. }
      rewrite E1, E2, E3.
      assert (K1 := dot_rows nz _ w _ CH). assert (K2 := dot_rows nz _ z _ CH). cbv beta in K1, K2.
      assert (K1' := Rle_abs (rsum nz (fun i => times nz (cH P) z i * w i))).
      assert (K2' := Rle_abs (rsum nz (fun i => times nz (cH P) z i * z i))).
      assert (E4 : rsum nz (fun i => rb (cH P) i * (t * Rabs (w i) + t * t / 2 * Rabs (z i))) =
        t * rsum nz (fun i => rb (cH P) i * Rabs (w i)) + t * t / 2 * rsum nz (fun i => rb (cH P) i * Rabs (z i))).
      { rewrite <- !rsum_scal, <- rsum_add. apply rsum_ext. intros; ring. }
      rewrite E4. unfold rb.
      set (a := rsum nz (fun i => times nz (cH P) z i * w i)) in *.
      set (b := rsum nz (fun i => times nz (cH P) z i * z i)) in *.
      set (a' := rsum nz (fun i => _ * Rabs (w i))) in *. set (b' := rsum nz (fun i => _ * Rabs (z i))) in *.
      assert (A1 : t * a <= t * a') by (apply Rmult_le_compat_l; lra).
      assert (A2 : t * t / 2 * b <= t * t / 2 * b') by (apply Rmult_le_compat_l; nra).
      nra.
  Qed.
End Meaning.

(* ---------------------------------------------------------------- calls with finite data *)
Inductive solver := Dense | Mpc.
Section Finite.
  Context {T : Type} (O : Ops T) (fin : T -> Prop) (val : T -> R) (LA : LinAlg T).
  Definition dense_finite (qp : dense_qp T) : Prop :=
    Forall fin (me (q_H qp)) /\ Forall fin (q_f qp) /\ Forall fin (me (q_G qp)) /\ Forall fin (q_h qp) /\
    Forall fin (me (q_A qp)) /\ Forall fin (q_b qp).
  Definition seq_finite (s : mapseq T) : Prop := match mp_mem s with None => True | Some mem => Forall fin mem end.
  Definition mpc_finite (m : mpc_ref T) : Prop :=
    seq_finite (m_Q m) /\ seq_finite (m_R m) /\ seq_finite (m_S m) /\ seq_finite (m_q m) /\ seq_finite (m_r m) /\
    seq_finite (m_A m) /\ seq_finite (m_B m) /\ seq_finite (m_c m) /\ seq_finite (m_E m) /\ seq_finite (m_L m) /\
    seq_finite (m_d m) /\ Forall fin (m_x0 m).
  (* fsolves of FloatRun.v, by solver, for data without infinities and NaNs *)
  Inductive fsolves_finite : solver -> QP -> nat -> params T -> var T -> T -> solve_result T -> Prop :=
  | ff_dense nz nl nv s qp d k x el :
      dense_finite qp -> dense_reach O LA nz nl nv s ->
      DenseData_ctor O (Some (q_H qp)) (Some (q_f qp)) (Some (q_G qp)) (Some (q_h qp))
                       (Some (q_A qp)) (Some (q_b qp)) = Ok d ->
      dense_validate s d x = Ok tt -> y_fits k x (Z.to_nat nv) ->
      fsolves_finite Dense (qp_val (O:=O) (val:=val) (q_H qp) (q_f qp) (q_G qp) (q_h qp) (q_A qp) (q_b qp))
              (length (q_f qp) + length (q_h qp) + length (q_b qp) + 4) (ds_options s) x el
              (snd (FBstabDense_Solve O LA s qp k x el))
  | ff_mpc N nx nu nc s qp d k x el :
      mpc_finite qp -> mpc_reach O LA N nx nu nc s -> seqs_valid qp -> single_columns qp ->
      MpcData_ctor O qp = Ok d -> mpc_validate_inputs s d x = Ok tt ->
      fsolves_finite Mpc (ocp_qp (ocp_val O val qp))
              ((Z.to_nat N + 1) * (3 * (Z.to_nat nx + Z.to_nat nu + Z.to_nat nc + 4))) (mps_options s) x el
              (snd (FBstabMpc_Solve O LA s qp k x el)).

  Lemma finite_solves kind P K o x el r : fsolves_finite kind P K o x el r -> fsolves O val LA P K o x el r.
  Proof. intros [ ]; [eapply fs_dense|eapply fs_mpc]; eauto. Qed.

  Context {u eta big : R}.
  Hypothesis W : Rounded O fin val u eta.
  Hypothesis G : Ranged O fin val u eta big.

  Lemma nth_fin l i : Forall fin l -> fin (nth i l (o_zero O)).
  Proof.
    intro F. destruct (lt_dec i (length l)) as [H|H]; [apply (proj1 (Forall_nth fin l) F); exact H|].
    rewrite nth_overflow by lia. apply (rd_zero _ _ _ _ _ W).
  Qed.
  Lemma fins_all l n : Forall fin l -> fins O fin n l.
  Proof. intros F i _. apply nth_fin. exact F. Qed.
  Lemma mfin_all M n m : Forall fin (me M) -> mfin (O:=O) (fin:=fin) M n m.
  Proof. intros F i j _ _. apply nth_fin. exact F. Qed.
  Lemma in_firstn {A} (a : A) n l : In a (firstn n l) -> In a l.
  Proof. intro H. rewrite <- (firstn_skipn n l). apply in_or_app. left. exact H. Qed.
  Lemma in_skipn {A} (a : A) n l : In a (skipn n l) -> In a l.
  Proof. intro H. rewrite <- (firstn_skipn n l). apply in_or_app. right. exact H. Qed.
  Lemma stg_fin s n r c k n' m' : seq_finite s -> sok s n r c -> (k < n)%nat -> mfin (O:=O) (fin:=fin) (stg s k) n' m'.
  Proof.
    intros F S Hk. destruct (sok_stg s n r c k S Hk) as (E & _). unfold at_, mapseq_at in E.
    destruct ((Z.of_nat k <? 0)%Z || (mp_N s <=? Z.of_nat k)%Z); cbn [negb throw_unless rbind] in E; [discriminate|].
    unfold seq_finite in F. destruct (mp_mem s) as [mem|]; [|discriminate].
    unfold view in E. apply rbind_ok in E. destruct E as (p & Ep & E). apply rbind_ok in E. destruct E as (off & Eo & E).
    apply rbind_ok in E. destruct E as ([] & Eu & E). injection E as E. rewrite <- E.
    apply mfin_all. cbn [me]. apply Forall_forall. intros a Ha. apply (proj1 (Forall_forall fin mem) F). apply in_skipn with (Z.to_nat off). eapply in_firstn. exact Ha.
  Qed.

  Record range_call (kind : solver) (P : QP) (K : nat) (o : params T) (x : var T) (el : T) (r : solve_result T)
      (D : Type) (DI : DataI T D) (d : D) (C : R) : Prop := {
    rc_call : solve_call O LA D DI d (n_z P) (n_l P) (n_v P) o x el r;
    rc_data : DataOk DI d (n_z P) (n_l P) (n_v P);
    rc_var : forall out, sr_out r = Ok out -> var_ok (n_z P) (n_l P) (n_v P) (sr_x r);
    rc_range : InRange (O:=O) (fin:=fin) (val:=val) (u:=u) (eta:=eta) (big:=big) DI d P K C
                 (fun y => kind = Mpc \/ fins O fin (length y) y);
    rc_C : 0 <= C <= 2 * INR K;
    rc_K1 : (n_z P + n_l P + n_v P + 4 <= 4 * K)%nat; rc_K2 : (n_l P + n_v P + 3 <= K)%nat; rc_K3 : (n_z P + 2 <= K)%nat }.

  Lemma range_stale D (DI : DataI T D) d P K C (s1 s2 : vec T -> Prop) : (forall y, s2 y -> s1 y) ->
    InRange (O:=O) (fin:=fin) (val:=val) (u:=u) (eta:=eta) (big:=big) DI d P K C s1 ->
    InRange (O:=O) (fin:=fin) (val:=val) (u:=u) (eta:=eta) (big:=big) DI d P K C s2.
  Proof. intros H [ ]. constructor; auto. Qed.

  Lemma finite_range kind P K o x el r : fsolves_finite kind P K o x el r ->
    exists D DI d C, range_call kind P K o x el r D DI d C.
  Proof.
    intros [nz nl nv s qp d k y e Hf Hr Hc Hv Hy|N nx nu nc s qp d k y e Hf Hr Hs Hc1 Hc Hv].
    - destruct (dense_desc O LA _ _ _ _ _ _ k _ e Hr Hc Hv Hy) as [DO CD].
      assert (SK := sc_dense O LA _ _ _ _ _ _ _ _ e Hr Hc Hv Hy).
      assert (Ed : d = mkDD (length (q_f qp)) (length (q_h qp)) (length (q_b qp)) (dd_fnorm d) (q_H qp) (q_G qp) (q_A qp) (q_f qp) (q_h qp) (q_b qp)).
      { pose proof Hc as Hc'. unfold DenseData_ctor in Hc'. cbn [arg rbind] in Hc'.
        do 3 (destruct (_ && _)%bool; cbn [throw_unless rbind] in Hc'; [|discriminate Hc']).
        injection Hc' as <-. reflexivity. }
      assert (E1 : Z.to_nat nz = length (q_f qp)) by (destruct DO; rewrite <- do_f, Ed; reflexivity).
      assert (E2 : Z.to_nat nl = length (q_h qp)) by (destruct DO; rewrite <- do_h, Ed; reflexivity).
      assert (E3 : Z.to_nat nv = length (q_b qp)) by (destruct DO; rewrite <- do_b, Ed; reflexivity).
      rewrite E1, E2, E3 in CD, SK, DO. destruct Hf as (fH & ff & fG & fh & fA & fb).
      assert (RG := dense_range W G d _ _ _ DO).
      assert (IR : InRange (O:=O) (fin:=fin) (val:=val) (u:=u) (eta:=eta) (big:=big) (denseDI O) d (dense_qp_val (O:=O) (val:=val) d)
        (length (q_f qp) + length (q_h qp) + length (q_b qp) + 4) (2 * INR (length (q_f qp) + length (q_h qp) + length (q_b qp)) + 3) (fun y => fins O fin (length y) y)).
      { apply RG; rewrite Ed; cbn [dd_H dd_G dd_A dd_f dd_h dd_b]; first [apply mfin_all; assumption|apply fins_all; assumption]. }
      exists (dense_data T), (denseDI O), d, (2 * INR (length (q_f qp) + length (q_h qp) + length (q_b qp)) + 3).
      constructor; cbn [n_z n_l n_v qp_val]; try lia.
      + exact SK.
      + destruct CD; assumption.
      + intros out E. pose proof (call_exit O _ _ _ _ _ _ _ _ _ _ _ _ _ CD) as EX. rewrite E in EX. apply EX.
      + eapply range_stale; [|rewrite Ed in IR |- *; exact IR]. intros w [H|H]; [discriminate H|exact H].
      + rewrite (plus_INR _ 4). pose proof (pos_INR (length (q_f qp) + length (q_h qp) + length (q_b qp))). cbn [INR]. lra.
    - destruct (mpc_desc O LA (fzero_eq O val W) _ _ _ _ _ _ _ k _ e Hr Hs Hc1 Hc Hv) as (MO & PO & E1 & E2 & E3 & CD).
      destruct (mpc_built_val O val qp d Hs Hc1 Hc) as (MO' & DS).
      assert (SK := sc_mpc O LA _ _ _ _ _ _ _ k _ e Hr Hs Hc1 Hc Hv).
      rewrite E1, E2, E3 in SK.
      assert (F1 : Z.to_nat N = oN (ocp_val O val qp)) by (destruct MO, MO'; congruence).
      assert (F2 : Z.to_nat nx = onx (ocp_val O val qp)) by (destruct MO, MO'; congruence).
      assert (F3 : Z.to_nat nu = onu (ocp_val O val qp)) by (destruct MO, MO'; congruence).
      assert (F4 : Z.to_nat nc = onc (ocp_val O val qp)) by (destruct MO, MO'; congruence).
      rewrite F1, F2, F3, F4 in *.
      assert (FD : finite_data O fin d (oN (ocp_val O val qp)) (onx (ocp_val O val qp)) (onu (ocp_val O val qp)) (onc (ocp_val O val qp))).
      { destruct Hf as (H1 & H2 & H3 & H4 & H5 & H6 & H7 & H8 & H9 & H10 & H11 & H12).
        destruct (mpc_ctor_ok O qp d Hs Hc1 Hc) as (_ & Em & _).
        destruct MO' as [EN Ex Eu Ec Ez El Ev HQ HR HS Hq Hr' HA HB Hc' HE HL HD Hx0].
        constructor; intros; try (rewrite Em; apply fins_all; exact H12);
          rewrite Em in *; (eapply stg_fin; [| |eassumption]); eassumption. }
      pose proof (mpc_range W G d _ MO' DS FD) as IR. cbv zeta in IR.
      exists (mpc_data T), (mpcDI O), d. eexists. constructor; [exact SK|destruct CD; assumption| | | | | |].
      + intros out E. pose proof (call_exit O _ _ _ _ _ _ _ _ _ _ _ _ _ CD) as EX. rewrite E in EX. apply EX.
      + eapply range_stale; [intros; exact I|exact IR].
      + pose proof (pos_INR ((oN (ocp_val O val qp) + 1) * (3 * (onx (ocp_val O val qp) + onu (ocp_val O val qp) + onc (ocp_val O val qp) + 4)))). lra.
      + cbn [n_z n_l n_v ocp_qp]. nia.
      + cbn [n_z n_l n_v ocp_qp]. nia.
      + cbn [n_z n_l n_v ocp_qp]. nia.
  Qed.
End Finite.

Section General.
  Context {T : Type} {O : Ops T} {fin : T -> Prop} {val : T -> R} {u eta big : R}.
  Hypothesis W : Rounded O fin val u eta.
  Hypothesis G : Ranged O fin val u eta big.
  Context (LA : LinAlg T) {kind : solver} {P : QP} {K : nat} {o : params T} {x : var T} {el : T} {r : solve_result T}.
  Hypothesis call : fsolves_finite O fin val LA kind P K o x el r.
  Notation vv := (fun x i => val (vget O x i)).

  (* the reported multipliers, if finite and if no sum reaches M, are a certificate *)
  Theorem C69_primal_certificate : forall out M g, sr_out r = Ok out ->
    so_eflag out = PRIMAL_INFEASIBLE \/ so_eflag out = PRIMAL_DUAL_INFEASIBLE ->
    fin (p_infeas_tol o) -> 0 <= val (p_infeas_tol o) ->
    (1 + u) ^ (4 * K) <= 1 + g -> g <= 1 / 8 -> 1 <= M -> 2 * M <= big -> INR K * eta <= 1 / 16 ->
    let l := vv (v_l (sr_x r)) in let v := vv (v_v (sr_x r)) in
    fins O fin (n_l P) (v_l (sr_x r)) -> fins O fin (n_v P) (v_v (sr_x r)) ->
    moderate_multipliers P M (val (p_infeas_tol o)) l v -> primal_ray P K g eta (val (p_infeas_tol o)) l v.
  Proof.
    intros out M g E F Ft Ht Hg Hg8 M1 MB KE. cbv zeta. intros Fl Fv MM.
    destruct (finite_range O fin val LA W G _ _ _ _ _ _ _ call) as (D & DI & d & C & [SC DK VO IR HC K1 K2 K3]).
    destruct (start_point_exists O LA (fzero_eq O val W) SC) as (x0 & E0).
    destruct (C11_certificate O LA (fzero_eq O val W) SC out x0 E E0) as (_ & tz & tl & tv & fs & Lz & Ll & Lv & FT & FF); [tauto|].
    apply (primal_test W G DI d P K C _ M g IR DK HC K1 K2 K3 Hg Hg8 M1 MB KE tz tl tv _ _ (VO out E) Lz Ll Lv Ft Ht fs FT); auto.
    rewrite FF in F. destruct fs, F as [F|F]; try discriminate F; auto.
  Qed.
  (* the reported direction of the MPC solver, likewise *)
  Theorem C69_dual_certificate : forall out M g, kind = Mpc -> sr_out r = Ok out ->
    so_eflag out = DUAL_INFEASIBLE \/ so_eflag out = PRIMAL_DUAL_INFEASIBLE ->
    fin (p_infeas_tol o) -> 0 <= val (p_infeas_tol o) -> fin (o_dec O 1 (-14)) ->
    (1 + u) ^ (4 * K) <= 1 + g -> g <= 1 / 8 -> 1 <= M -> 2 * M <= big -> INR K * eta <= 1 / 16 ->
    let z := vv (v_z (sr_x r)) in
    fins O fin (n_z P) (v_z (sr_x r)) ->
    moderate_direction P M (val (p_infeas_tol o)) z ->
    dual_ray P K g eta (val (p_infeas_tol o)) (val (o_dec O 1 (-14))) z.
  Proof.
    intros out M g HM E F Ft Ht Fd Hg Hg8 M1 MB KE. cbv zeta. intros Fz MM.
    destruct (finite_range O fin val LA W G _ _ _ _ _ _ _ call) as (D & DI & d & C & [SC DK VO IR HC K1 K2 K3]).
    destruct (start_point_exists O LA (fzero_eq O val W) SC) as (x0 & E0).
    destruct (C11_certificate O LA (fzero_eq O val W) SC out x0 E E0) as (_ & tz & tl & tv & fs & Lz & Ll & Lv & FT & FF); [tauto|].
    apply (dual_test W G DI d P K C _ M g IR DK HC K1 K2 K3 Hg Hg8 M1 MB KE tz tl tv _ _ (VO out E) Lz Ll Lv Ft Ht fs FT); auto.
    rewrite FF in F. destruct fs, F as [F|F]; try discriminate F; auto.
  Qed.
End General.

(* ---------------------------------------------------------------- IEEE binary64 *)
Lemma dec14 : Bfin (Bdec 1 (-14)) /\ 9999999999999998 / 10 ^ 30 <= Bval (Bdec 1 (-14)) <= 10000000000000001 / 10 ^ 30.
Proof.
  assert (Q : B2SF (Bdec 1 (-14)) = SpecFloat.S754_finite false 6338253001141147 (-99)) by (vm_compute; reflexivity).
  split; [vm_compute; reflexivity|]. unfold Bval.
  destruct (Bdec 1 (-14)) as [s|s| |s m e Bq]; cbn [B2SF] in Q; try discriminate. injection Q as -> -> ->.
  unfold B2R, F2R. cbn [Fnum Fexp cond_Zopp]. unfold bpow. cbn. lra.
Qed.
Lemma solve_itol_B LA D DI d nz nl nv o x el r : solve_call Bops LA D DI d nz nl nv o x el r ->
  Bfin (p_infeas_tol o) -> 0 <= Bval (p_infeas_tol o).
Proof.
  intros SC F. destruct (call_opts doubles_B LA default_B zero_eq_B _ _ _ _ _ _ _ _ _ _ SC) as [o0 ->].
  cbn [p_infeas_tol validated] in *. destruct dec14 as (F14 & V14).
  unfold smax in *. destruct (o_ltb Bops (p_infeas_tol o0) (o_dec Bops 1 (-14))) eqn:L.
  - change (o_dec Bops 1 (-14)) with (Bdec 1 (-14)). lra.
  - destruct (Rle_dec (Bval (Bdec 1 (-14))) (Bval (p_infeas_tol o0))) as [H|H]; [lra|].
    assert (X : o_ltb Bops (p_infeas_tol o0) (o_dec Bops 1 (-14)) = true) by (apply (rd_ltb _ _ _ _ _ Brounded); [exact F|exact F14|change (o_dec Bops 1 (-14)) with (Bdec 1 (-14)); lra]).
    congruence.
Qed.
Lemma K_eta K : (Z.of_nat K <= 2 ^ 47)%Z -> INR K * Beta <= 1 / 16.
Proof.
  intro H. apply IZR_le in H. rewrite <- INR_IZR_INZ in H. change (IZR (2 ^ 47)) with (IZR 140737488355328) in H.
  pose proof Beta_pos as B0. assert (B1 : Beta <= / 2 ^ 60).
  { rewrite Beta_eq. apply Rinv_le_contravar; [apply pow_lt; lra|]. apply Rle_pow; [lra|lia]. }
  pose proof (pos_INR K) as HK. apply Rle_trans with (140737488355328 * / 2 ^ 60); [apply Rmult_le_compat; lra|lra].
Qed.
Lemma M_big : 1 <= 2 ^ 1022 /\ 2 * 2 ^ 1022 <= Bbig.
Proof. split; [apply pow_R1_Rle; lra|]. rewrite Bbig_eq. right. reflexivity. Qed.

Section Doubles.
  Context (LA : LinAlg B64) {kind : solver} {P : QP} {K : nat} {o : params B64} {x : var B64} {el : B64} {r : solve_result B64}.
  Hypothesis call : fsolves_finite Bops (fun a => is_finite a = true) B2R LA kind P K o x el r.
  Notation vv := (fun x i => B2R (vget Bops x i)).
  Notation finite_to n x := (forall i, (i < n)%nat -> is_finite (vget Bops x i) = true).

  Theorem C69_doubles_primal : forall out, sr_out r = Ok out ->
    so_eflag out = PRIMAL_INFEASIBLE \/ so_eflag out = PRIMAL_DUAL_INFEASIBLE ->
    is_finite (p_infeas_tol o) = true -> (Z.of_nat K <= 2 ^ 47)%Z ->
    finite_to (n_l P) (v_l (sr_x r)) -> finite_to (n_v P) (v_v (sr_x r)) ->
    let l := vv (v_l (sr_x r)) in let v := vv (v_v (sr_x r)) in
    moderate_multipliers P (2 ^ 1022) (B2R (p_infeas_tol o)) l v ->
    primal_ray P K (INR K / 2 ^ 50) (/ 2 ^ 1075) (B2R (p_infeas_tol o)) l v.
  Proof.
    intros out E F Ft HK Fl Fv. cbv zeta. intro MM. destruct (K_bound K HK) as [G1 G2]. rewrite <- Beta_eq.
    destruct (finite_range Bops Bfin Bval LA Brounded Branged _ _ _ _ _ _ _ call) as (D & DI & d & C & [SC _ _ _ _ _ _ _]).
    destruct M_big as (M1 & M2).
    exact (C69_primal_certificate Brounded Branged LA call out (2 ^ 1022) _ E F Ft (solve_itol_B _ _ _ _ _ _ _ _ _ _ _ SC Ft) G1 G2 M1 M2 (K_eta K HK) Fl Fv MM).
  Qed.
  Theorem C69_doubles_dual : forall out, kind = Mpc -> sr_out r = Ok out ->
    so_eflag out = DUAL_INFEASIBLE \/ so_eflag out = PRIMAL_DUAL_INFEASIBLE ->
    is_finite (p_infeas_tol o) = true -> (Z.of_nat K <= 2 ^ 47)%Z ->
    finite_to (n_z P) (v_z (sr_x r)) ->
    let z := vv (v_z (sr_x r)) in
    moderate_direction P (2 ^ 1022) (B2R (p_infeas_tol o)) z ->
    dual_ray P K (INR K / 2 ^ 50) (/ 2 ^ 1075) (B2R (p_infeas_tol o)) (9999999999999998 / 10 ^ 30) z.
  Proof.
    intros out HM E F Ft HK Fz. cbv zeta. intro MM. destruct (K_bound K HK) as [G1 G2]. rewrite <- Beta_eq.
    destruct (finite_range Bops Bfin Bval LA Brounded Branged _ _ _ _ _ _ _ call) as (D & DI & d & C & [SC _ _ _ _ _ _ _]).
    destruct M_big as (M1 & M2). destruct dec14 as (F14 & V14).
    destruct (C69_dual_certificate Brounded Branged LA call out (2 ^ 1022) _ HM E F Ft (solve_itol_B _ _ _ _ _ _ _ _ _ _ _ SC Ft) F14 G1 G2 M1 M2 (K_eta K HK) Fz MM) as [D1 D2 D3 D4 D5].
    constructor; try assumption. eapply Rle_lt_trans; [|exact D5]. apply V14.
  Qed.
End Doubles.
