(* C34: DenseCholeskySolver computes the Newton step of the documented system. *)
From Verif Require Export PropsWeights LALaws DenseR RunR.
Local Open Scope R_scope.

Section Dense.
  Context (LA : LinAlg R) (LL : LALaws LA).
  Context (d : dense_data R) (nz nl nv : nat) (Hd : dense_ok d nz nl nv).
  Notation P := (dense_qp_of d).
  Context (al sg : R) (x xb : var R) (Hal : 0 < al < 1) (Hsg : 0 < sg).
  Notation gam := (w_gamma Rops al sg x xb nv).
  Notation mus := (w_mus Rops al sg x xb nv).
  Notation Gam := (w_Gamma Rops gam mus).
  Notation K := (symlow Rops (dK Rops d nz nl nv al sg x xb)).

  Lemma P_nz : n_z P = nz. Proof. exact (do_f _ _ _ _ Hd). Qed.
  Lemma P_nl : n_l P = nl. Proof. exact (do_h _ _ _ _ Hd). Qed.
  Lemma P_nv : n_v P = nv. Proof. exact (do_b _ _ _ _ Hd). Qed.

  Definition Eij (i j : nat) : R :=
    rm (dd_H d) i j + (if Nat.eqb i j then sg else 0) +
    rsum nv (fun k => rm (dd_A d) k i * (rg Gam k * rm (dd_A d) k j)).

  Lemma E_entry i j : (i < nz)%nat -> (j < nz)%nat -> rm (dense_E Rops d sg Gam nz) i j = Eij i j.
  Proof.
    destruct Hd as [Hr Hc Gr Gc Ar Ac Hf Hh Hb]. intros Hi Hj. unfold dense_E.
    assert (X1 : mr (madd Rops (dd_H d) (meye Rops nz sg)) = nz) by exact Hr.
    assert (X2 : mc (madd Rops (dd_H d) (meye Rops nz sg)) = nz) by exact Hc.
    unfold madd at 1. rewrite X1, X2, (mget_mtab Rops) by assumption.
    unfold madd. rewrite Hr, Hc, (mget_mtab Rops) by assumption.
    unfold meye. rewrite (mget_mtab Rops) by assumption.
    rewrite mm_entry; cbn [mtrans mdiag_l mtab mr mc]; try congruence; try lia.
    unfold Eij. cbn [o_add o_mul o_one o_zero Rops]. f_equal.
    - f_equal. destruct (Nat.eqb i j); ring.
    - rewrite Ar. apply rsum_ext. intros k Hk. unfold mtrans, mdiag_l.
      rewrite !(mget_mtab Rops) by (try congruence; lia). reflexivity.
  Qed.

  Hypothesis Hsym : forall i j, (i < nz)%nat -> (j < nz)%nat -> rm (dd_H d) i j = rm (dd_H d) j i.

  Lemma Eij_sym i j : (i < nz)%nat -> (j < nz)%nat -> Eij i j = Eij j i.
  Proof.
    intros Hi Hj. unfold Eij. rewrite (Hsym i j) by assumption. rewrite (Nat.eqb_sym i j). f_equal.
    apply rsum_ext. intros; ring.
  Qed.

  Lemma K_mr : mr K = (nz + nl)%nat. Proof. reflexivity. Qed.
  Lemma K_mc : mc K = (nz + nl)%nat. Proof. reflexivity. Qed.

  Lemma K_low i j : (j <= i)%nat -> (i < nz + nl)%nat ->
    rm (dK Rops d nz nl nv al sg x xb) i j =
    if Nat.ltb i nz then Eij i j
    else if Nat.ltb j nz then rm (dd_G d) (i - nz) j
    else if Nat.eqb i j then - sg else 0.
  Proof.
    intros Hj Hi. unfold dK, dense_K. rewrite (mget_mtab Rops) by lia.
    destruct (Nat.ltb_spec i nz).
    - destruct (Nat.ltb_spec j nz); [|lia]. apply E_entry; lia.
    - destruct (Nat.ltb_spec j nz); [reflexivity|]. cbn [o_mul o_opp o_one o_zero Rops].
      destruct (Nat.eqb i j); ring.
  Qed.
  Lemma K_entry i j : (i < nz + nl)%nat -> (j < nz + nl)%nat -> 
    rm K i j = if (j <=? i)%nat then rm (dK Rops d nz nl nv al sg x xb) i j
               else rm (dK Rops d nz nl nv al sg x xb) j i.
  Proof. intros Hi Hj. unfold symlow. rewrite (mget_mtab Rops) by assumption. reflexivity. Qed.

  Lemma K_EE i j : (i < nz)%nat -> (j < nz)%nat -> rm K i j = Eij i j.
  Proof.
    intros Hi Hj. rewrite K_entry by lia. destruct (Nat.leb_spec j i).
    - rewrite K_low by lia. destruct (Nat.ltb_spec i nz); [reflexivity|lia].
    - rewrite K_low by lia. destruct (Nat.ltb_spec j nz); [|lia]. apply Eij_sym; assumption.
  Qed.
  Lemma K_GE k j : (k < nl)%nat -> (j < nz)%nat -> rm K (nz + k) j = rm (dd_G d) k j.
  Proof.
    intros Hk Hj. rewrite K_entry by lia. destruct (Nat.leb_spec j (nz + k)); [|lia].
    rewrite K_low by lia. destruct (Nat.ltb_spec (nz + k) nz); [lia|].
    destruct (Nat.ltb_spec j nz); [|lia]. replace (nz + k - nz)%nat with k by lia. reflexivity.
  Qed.
  Lemma K_EG j k : (k < nl)%nat -> (j < nz)%nat -> rm K j (nz + k) = rm (dd_G d) k j.
  Proof.
    intros Hk Hj. rewrite K_entry by lia. destruct (Nat.leb_spec (nz + k) j); [lia|].
    rewrite K_low by lia. destruct (Nat.ltb_spec (nz + k) nz); [lia|].
    destruct (Nat.ltb_spec j nz); [|lia]. replace (nz + k - nz)%nat with k by lia. reflexivity.
  Qed.
  Lemma K_GG i j : (i < nl)%nat -> (j < nl)%nat -> rm K (nz + i) (nz + j) = if Nat.eqb i j then - sg else 0.
  Proof.
    intros Hi Hj. rewrite K_entry by lia.
    assert (X : forall a b, (a < nl)%nat -> (b < nl)%nat -> (b <= a)%nat ->
      rm (dK Rops d nz nl nv al sg x xb) (nz + a) (nz + b) = if Nat.eqb a b then - sg else 0).
    { intros a b Ha Hb Hab. rewrite K_low by lia. destruct (Nat.ltb_spec (nz + a) nz); [lia|].
      destruct (Nat.ltb_spec (nz + b) nz); [lia|].
      destruct (Nat.eqb_spec (nz + a) (nz + b)); destruct (Nat.eqb_spec a b); try lia; reflexivity. }
    destruct (Nat.leb_spec (nz + j) (nz + i)); [apply X; lia|]. rewrite X by lia. rewrite Nat.eqb_sym. reflexivity.
  Qed.
  Lemma K_sym : symmetric (nz + nl) (rm K).
  Proof.
    intros i j Hi Hj. rewrite !K_entry by lia.
    destruct (Nat.leb_spec j i); destruct (Nat.leb_spec i j); try lia; try reflexivity.
    replace i with j by lia. reflexivity.
  Qed.

  (* the weights *)
  Lemma W_ok : weights_ok P (rg gam) (rg mus).
  Proof.
    intros k Hk. rewrite P_nv in Hk. destruct (C33_weights al sg x xb nv Hal Hsg) as (_ & _ & _ & W).
    destruct (W k Hk) as (W1 & W2 & _). split; assumption.
  Qed.
  Lemma Gam_eq k : (k < nv)%nat -> rg Gam k = rg gam k / rg mus k.
  Proof. intro Hk. destruct (C33_weights al sg x xb nv Hal Hsg) as (_ & _ & _ & W). apply (W k Hk). Qed.
  Lemma mus_pos k : (k < nv)%nat -> 0 < rg mus k.
  Proof. intro Hk. destruct (C33_weights al sg x xb nv Hal Hsg) as (_ & _ & _ & W). apply (W k Hk). Qed.

  (* E z, in terms of the problem *)
  Lemma E_times z i : (i < nz)%nat ->
    rsum nz (fun j => Eij i j * z j) =
    times nz (rm (dd_H d)) z i + sg * z i +
    ttimes nv (rm (dd_A d)) (fun k => rg Gam k * times nz (rm (dd_A d)) z k) i.
  Proof.
    intro Hi. unfold times, ttimes.
    rewrite (rsum_ext nz _ (fun j => rm (dd_H d) i j * z j + ((if Nat.eqb j i then sg * z j else 0) +
       rsum nv (fun k => rm (dd_A d) k i * (rg Gam k * rm (dd_A d) k j) * z j)))).
    2:{ intros j Hj. unfold Eij. rewrite (Nat.eqb_sym j i).
        rewrite (rsum_scal_r nv (z j)). destruct (Nat.eqb i j); ring. }
    rewrite !rsum_add, rsum_if_eq by exact Hi. rewrite rsum_swap.
    rewrite (rsum_ext nv _ (fun k => rm (dd_A d) k i * (rg Gam k * rsum nz (fun j => rm (dd_A d) k j * z j)))).
    2:{ intros k Hk. rewrite <- !rsum_scal. apply rsum_ext. intros; ring. }
    ring.
  Qed.

  (* a solution of K s = (rz - A'(rv/mus), -rl) gives a solution of the Newton system *)
  Lemma reduced_to_newton s rz rl rv :
    (forall i, (i < nz)%nat -> rsum (nz + nl) (fun j => rm K i j * s j) =
       rz i - ttimes nv (rm (dd_A d)) (fun k => rv k / rg mus k) i) ->
    (forall k, (k < nl)%nat -> rsum (nz + nl) (fun j => rm K (nz + k) j * s j) = - rl k) ->
    newton_system P sg (rg gam) (rg mus) s (fun k => s (nz + k)%nat)
      (fun k => (rg gam k * times nz (rm (dd_A d)) s k + rv k) / rg mus k) rz rl rv.
  Proof.
    intros H1 H2. unfold newton_system. rewrite P_nz, P_nl, P_nv. cbn [cH cG cA dense_qp_of qp_of].
    split; [|split].
    - intros i Hi. specialize (H1 i Hi). rewrite rsum_split in H1.
      rewrite (rsum_ext nz _ (fun j => Eij i j * s j)) in H1 by (intros; rewrite K_EE by assumption; reflexivity).
      rewrite E_times in H1 by exact Hi.
      rewrite (rsum_ext nl _ (fun k => rm (dd_G d) k i * s (nz + k)%nat)) in H1
        by (intros; rewrite K_EG by assumption; reflexivity).
      change (rsum nl (fun k => rm (dd_G d) k i * s (nz + k)%nat)) with
        (ttimes nl (rm (dd_G d)) (fun k => s (nz + k)%nat) i) in H1.
      assert (Ev : ttimes nv (rm (dd_A d)) (fun k => (rg gam k * times nz (rm (dd_A d)) s k + rv k) / rg mus k) i =
        ttimes nv (rm (dd_A d)) (fun k => rg Gam k * times nz (rm (dd_A d)) s k) i +
        ttimes nv (rm (dd_A d)) (fun k => rv k / rg mus k) i).
      { unfold ttimes. rewrite <- rsum_add. apply rsum_ext. intros k Hk. rewrite Gam_eq by exact Hk.
        field. assert (W := mus_pos k Hk). lra. }
      rewrite Ev. lra.
    - intros k Hk. specialize (H2 k Hk). rewrite rsum_split in H2.
      rewrite (rsum_ext nz _ (fun j => rm (dd_G d) k j * s j)) in H2 by (intros; rewrite K_GE by assumption; reflexivity).
      rewrite (rsum_ext nl _ (fun j => if Nat.eqb j k then - sg * s (nz + j)%nat else 0)) in H2.
      2:{ intros j Hj. rewrite K_GG by assumption. rewrite (Nat.eqb_sym j k). destruct (Nat.eqb k j); ring. }
      rewrite rsum_if_eq in H2 by exact Hk. unfold times. lra.
    - intros k Hk. field. assert (W := mus_pos k Hk). lra.
  Qed.

  (* the Newton matrix has a trivial kernel *)
  Definition newton_regular : Prop := forall dz dl dv,
    newton_system P sg (rg gam) (rg mus) dz dl dv (fun _ => 0) (fun _ => 0) (fun _ => 0) ->
    (forall i, (i < nz)%nat -> dz i = 0) /\ (forall k, (k < nl)%nat -> dl k = 0).

  Lemma K_nonsingular : newton_regular -> nonsingular (nz + nl) (rm K).
  Proof.
    intros Reg s Hs.
    assert (N := reduced_to_newton s (fun _ => 0) (fun _ => 0) (fun _ => 0)).
    lapply N; [clear N; intro N; lapply N; [clear N; intro N|]|].
    1:{ destruct (Reg _ _ _ N) as [R1 R2].
      intros i Hi. destruct (Nat.lt_ge_cases i nz) as [C|C]; [apply R1; exact C|].
      replace i with (nz + (i - nz))%nat by lia. apply (R2 (i - nz)%nat). lia. }
    2:{ intros i Hi. rewrite Hs by lia. unfold ttimes. rewrite rsum_zero; [ring|]. intros; unfold Rdiv; ring. }
    intros k Hk. rewrite Hs by lia. ring.
  Qed.

  Lemma step_newton r : rsd_ok nz nl nv r -> newton_regular ->
    la_ldlt_ok LA K = true ->
    let dx := d_pst Rops LA d nz nl nv al sg x xb r in
    newton_system P sg (rg gam) (rg mus) (rg (v_z dx)) (rg (v_l dx)) (rg (v_v dx))
       (rg (r_z r)) (rg (r_l r)) (rg (r_v r)).
  Proof.
    intros (Rz & Rl & Rv) Reg Hok dx. destruct Hd as [Hr Hc Gr Gc Ar Ac Hf Hh Hb] eqn:EHd.
    unfold d_pst, dense_step in dx.
    set (r2 := vquot Rops (r_v r) mus) in dx.
    assert (L2 : length r2 = nv) by (unfold r2; autorewrite with vlen; exact Rv).
    set (r1 := vsub Rops (r_z r) (mtv Rops (dd_A d) r2) ++ vopp Rops (r_l r)) in dx.
    assert (La : length (vsub Rops (r_z r) (mtv Rops (dd_A d) r2)) = nz) by (autorewrite with vlen; exact Rz).
    assert (L1 : length r1 = (nz + nl)%nat).
    { unfold r1. rewrite app_length, La. autorewrite with vlen. rewrite Rl. reflexivity. }
    destruct (ll_ldlt_sound LA LL K r1 (nz + nl)%nat K_mr K_mc L1 K_sym (K_nonsingular Reg) Hok) as [Ls Hs].
    set (s := la_ldlt_solve LA K r1) in *.
    assert (Vr2 : forall k, (k < nv)%nat -> rg r2 k = rg (r_v r) k / rg mus k).
    { intros k Hk. unfold r2, vquot. rewrite Rv, (vget_tab Rops) by exact Hk. reflexivity. }
    assert (N := reduced_to_newton (rg s) (rg (r_z r)) (rg (r_l r)) (rg (r_v r))).
    destruct N as (N1 & N2 & N3).
    { intros i Hi. rewrite Hs by lia. unfold r1, vget. rewrite app_nth1 by (rewrite La; exact Hi). fold (rg (vsub Rops (r_z r) (mtv Rops (dd_A d) r2)) i).
      unfold vsub. rewrite Rz, (vget_tab Rops) by exact Hi. cbn [o_sub Rops]. rewrite mtv_entry by congruence.
      unfold ttimes. rewrite Ar. f_equal. apply rsum_ext. intros k Hk. rewrite Vr2 by exact Hk. reflexivity. }
    { intros k Hk. rewrite Hs by lia. unfold r1, vget. rewrite app_nth2 by (rewrite La; lia).
      rewrite La. replace (nz + k - nz)%nat with k by lia.
      fold (rg (vopp Rops (r_l r)) k). unfold vopp. rewrite Rl, (vget_tab Rops) by exact Hk. reflexivity. }
    assert (Ez : forall i, (i < nz)%nat -> rg (v_z dx) i = rg s i).
    { intros i Hi. unfold dx; cbn [v_z]. unfold vseg. rewrite (vget_tab Rops) by exact Hi. reflexivity. }
    assert (El : forall i, (i < nl)%nat -> rg (v_l dx) i = rg s (nz + i)).
    { intros i Hi. unfold dx; cbn [v_l]. unfold vseg. rewrite (vget_tab Rops) by exact Hi. reflexivity. }
    assert (TA : forall k, times nz (rm (dd_A d)) (rg (v_z dx)) k = times nz (rm (dd_A d)) (rg s) k).
    { intros k. unfold times. apply rsum_ext. intros j Hj. rewrite Ez by exact Hj. reflexivity. }
    assert (TG : forall k, times nz (rm (dd_G d)) (rg (v_z dx)) k = times nz (rm (dd_G d)) (rg s) k).
    { intros k. unfold times. apply rsum_ext. intros j Hj. rewrite Ez by exact Hj. reflexivity. }
    assert (TH : forall k, times nz (rm (dd_H d)) (rg (v_z dx)) k = times nz (rm (dd_H d)) (rg s) k).
    { intros k. unfold times. apply rsum_ext. intros j Hj. rewrite Ez by exact Hj. reflexivity. }
    assert (Lm : length mus = nv) by apply tab_length.
    assert (Ev : forall k, (k < nv)%nat -> rg (v_v dx) k =
              (rg gam k * times nz (rm (dd_A d)) (rg s) k + rg (r_v r) k) / rg mus k).
    { intros k Hk. unfold dx; cbn [v_v]. rewrite Lm, (vget_tab Rops) by exact Hk.
      cbn [o_div o_add o_mul Rops]. do 3 f_equal. 
      assert (Lz : length (vseg Rops s 0 nz) = nz) by apply vseg_len.
      rewrite mv_entry by congruence. rewrite Ac. exact (TA k). }
    revert N1 N2 N3. unfold newton_system. rewrite P_nz, P_nl, P_nv. cbn [cH cG cA dense_qp_of qp_of].
    intros N1 N2 N3. split; [|split].
    - intros i Hi. rewrite <- (N1 i Hi), TH, Ez by exact Hi. f_equal; [f_equal|].
      + apply rsum_ext. intros k Hk. rewrite El by exact Hk. reflexivity.
      + apply rsum_ext. intros k Hk. rewrite Ev by exact Hk. reflexivity.
    - intros k Hk. rewrite <- (N2 k Hk), TG, El by exact Hk. reflexivity.
    - intros k Hk. rewrite <- (N3 k Hk), TA, Ev by exact Hk. reflexivity.
  Qed.

  (* for a convex problem the kernel is trivial and the factorisation succeeds *)
  Lemma convex_regular : convex P -> newton_regular.
  Proof.
    intros C dz dl dv N. destruct (newton_kernel _ _ _ _ _ _ _ C Hsg W_ok N) as (N1 & N2 & _).
    rewrite P_nz in N1. rewrite P_nl in N2. split; assumption.
  Qed.
  Lemma E_posdef : convex P -> posdef nz (rm K).
  Proof.
    intros [_ C] z (i0 & Hi0 & Hz0).
    assert (E : qform nz (rm K) z = quad P z + sg * rsum nz (fun i => z i * z i) +
              rsum nv (fun k => rg Gam k * (times nz (rm (dd_A d)) z k * times nz (rm (dd_A d)) z k))).
    { unfold qform. rewrite (rsum_ext nz _ (fun i => z i * times nz (rm (dd_H d)) z i + (sg * (z i * z i) +
          z i * ttimes nv (rm (dd_A d)) (fun k => rg Gam k * times nz (rm (dd_A d)) z k) i))).
      2:{ intros i Hi. rewrite (rsum_ext nz _ (fun j => z i * (Eij i j * z j))).
          2:{ intros j Hj. rewrite K_EE by assumption. ring. }
          rewrite rsum_scal, E_times by exact Hi. ring. }
      rewrite !rsum_add, rsum_scal, ttimes_dot.
      assert (Q := times_dot_quad P z). rewrite P_nz in Q. cbn [cH dense_qp_of qp_of] in Q. rewrite Q.
      rewrite (rsum_ext nv (fun k => rg Gam k * times nz (rm (dd_A d)) z k * times nz (rm (dd_A d)) z k)
          (fun k => rg Gam k * (times nz (rm (dd_A d)) z k * times nz (rm (dd_A d)) z k))) by (intros; ring).
      ring. }
    rewrite E. assert (C0 := C z).
    assert (X : 0 <= rsum nv (fun k => rg Gam k * (times nz (rm (dd_A d)) z k * times nz (rm (dd_A d)) z k))).
    { apply rsum_nonneg. intros k Hk. destruct (C33_weights al sg x xb nv Hal Hsg) as (_ & _ & _ & W).
      destruct (W k Hk) as (_ & _ & _ & W4). apply Rmult_le_pos; [exact W4|apply Rle_0_sqr]. }
    assert (Y := rsum_term_le nz (fun i => z i * z i) i0 Hi0 (fun j _ => Rle_0_sqr (z j))). cbv beta in Y.
    assert (0 < z i0 * z i0) by (destruct (Rtotal_order (z i0) 0) as [?|[?|?]]; nra).
    assert (0 < sg * rsum nz (fun i => z i * z i)) by (apply Rmult_lt_0_compat; lra). lra.
  Qed.
  Lemma convex_init : convex P -> la_ldlt_ok LA K = true.
  Proof.
    intro C. apply (ll_ldlt_complete LA LL K nz nl K_mr K_mc). split; [exact K_sym|]. split; [apply E_posdef; exact C|].
    exists sg. split; [exact Hsg|]. intros i j Hi Hj. apply K_GG; assumption.
  Qed.
End Dense.

(* ---------- C34 ---------- *)

(* a solver object ready for problem data of its size: after the constructor, SetAlpha and
   LinkData (dense_cholesky_solver.h) *)
Definition dense_solver_ready (c : dchol R) (d : dense_data R) (al : R) : Prop :=
  dc_nz c = dd_nz d /\ dc_nl c = dd_nl d /\ dc_nv c = dd_nv d /\ dc_alpha c = al /\ dc_data c = PLive d.

Lemma ctor_ok H f G h A b d :
  DenseData_ctor Rops (Some H) (Some f) (Some G) (Some h) (Some A) (Some b) = Ok d ->
  dense_ok d (dd_nz d) (dd_nl d) (dd_nv d) /\ dense_qp_of d = qp_of H f G h A b /\
  dd_nz d = length f /\ dd_nl d = length h /\ dd_nv d = length b.
Proof.
  intro E. destruct (dense_explicit _ _ _ _ _ _ _ E) as [Ed _]. rewrite Ed at 5 6 7 8. 
  revert E. unfold DenseData_ctor. cbn [arg rbind].
  destruct (_ && _) eqn:E1; cbn [throw_unless rbind]; [|discriminate].
  destruct ((mc A =? _)%nat && _) eqn:E2; cbn [throw_unless rbind]; [|discriminate].
  destruct ((mc G =? _)%nat && _) eqn:E3; cbn [throw_unless rbind]; [|discriminate].
  intro E. apply andb_prop in E1. apply andb_prop in E2. apply andb_prop in E3.
  destruct E1 as [E1 E1']. destruct E2 as [E2 E2']. destruct E3 as [E3 E3'].
  apply Nat.eqb_eq in E1, E1', E2, E2', E3, E3'. injection E as <-. cbn [dd_nz dd_nl dd_nv].
  split; [constructor; cbn; congruence|]. repeat split.
Qed.

Section C34.
  Context (LA : LinAlg R) (LL : LALaws LA).
  Context (H G A : mat R) (f h b : vec R) (d : dense_data R).
  Hypothesis Hctor : DenseData_ctor Rops (Some H) (Some f) (Some G) (Some h) (Some A) (Some b) = Ok d.
  Notation P := (qp_of H f G h A b).
  Notation pt := (at_point d (length f) (length h) (length b)).
  Notation vok := (var_ok (length f) (length h) (length b)).
  Notation rok := (rsd_ok (length f) (length h) (length b)).

  (* whenever Initialize reports success and the system has only one solution, Solve returns it *)
  Theorem C34_dense_newton_step : forall c al sg x xb c',
    dense_solver_ready c d al -> 0 < al < 1 -> vok x -> vok xb ->
    (forall i j, (i < length f)%nat -> (j < length f)%nat -> rm H i j = rm H j i) ->
    dc_init Rops LA c (pt x) (pt xb) sg = (c', Ok true) ->
    let g := rg (w_gamma Rops al sg x xb (length b)) in
    let m := rg (w_mus Rops al sg x xb (length b)) in
    (forall dz dl dv, newton_system P sg g m dz dl dv (fun _ => 0) (fun _ => 0) (fun _ => 0) ->
       (forall i, (i < length f)%nat -> dz i = 0) /\ (forall k, (k < length h)%nat -> dl k = 0)) ->
    forall r dx, rok r -> vok dx -> exists dx',
      dc_solve Rops LA c' (mkFres (length f) (length h) (length b) r al (PLive d)) (Some (pt dx)) = Ok (true, pt dx') /\
      vok dx' /\
      newton_system P sg g m (rg (v_z dx')) (rg (v_l dx')) (rg (v_v dx')) (rg (r_z r)) (rg (r_l r)) (rg (r_v r)) /\
      forall k, (k < length b)%nat -> rg (v_y dx') k = margin P (rg (v_z dx')) k.
  Proof.
    intros c al sg x xb c' (R1 & R2 & R3 & R4 & R5) Hal Vx Vb Hs E g m Reg r dx Hr Vd.
    destruct (ctor_ok _ _ _ _ _ _ _ Hctor) as (DO & EP & E1 & E2 & E3).
    rewrite E1, E2, E3 in *.
    assert (Re : d_ready d (length f) (length h) (length b) al c) by (unfold d_ready, d_lsize; repeat split; congruence).
    destruct (lo_init _ _ _ _ _ _ _ _ _ (dense_ls_ok Rops LA d _ _ _ DO) al sg c x xb Re Vx Vb) as (l' & I1 & I2 & I3).
    unfold FV in I1. cbn [denseLS ls_init] in I1. change (dc_init Rops LA c (pt x) (pt xb) sg = (l', d_pinit Rops LA d (length f) (length h) (length b) al sg x xb)) in I1.
    rewrite E in I1. injection I1 as -> I1. symmetry in I1.
    destruct (I3 I1 r dx Hr Vd) as [S1 S2]. cbn [denseLS ls_solve] in S1.
    assert (Hsg : 0 < sg /\ la_ldlt_ok LA (symlow Rops (dK Rops d (length f) (length h) (length b) al sg x xb)) = true).
    { unfold d_pinit in I1. cbn [o_leb o_zero Rops] in I1. destruct (Rleb sg 0) eqn:EL; [discriminate|].
      apply Rleb_false in EL. split; [exact EL|]. injection I1. auto. }
    destruct Hsg as [Hsg Hok].
    eexists. split; [exact S1|]. split; [exact S2|]. rewrite <- EP in Reg. rewrite <- EP.
    assert (EX : dd_H d = H).
    { destruct (dense_explicit _ _ _ _ _ _ _ Hctor) as [Ed _]. rewrite Ed. reflexivity. }
    split.
    - apply (step_newton LA LL d _ _ _ DO al sg x xb Hal Hsg); try assumption. rewrite EX. exact Hs.
    - intros k Hk. apply (dense_pst_margin LA d (dense_qp_of d) (length f) (length h) (length b) al sg x xb r);
        [rewrite EP; apply (dense_explicit _ _ _ _ _ _ _ Hctor)|reflexivity|exact DO|rewrite EP; exact Hk].
  Qed.

  (* for convex problems Initialize always reports success and the system has one solution *)
  Theorem C34_convex_init : forall c al sg x xb,
    dense_solver_ready c d al -> 0 < al < 1 -> 0 < sg -> vok x -> vok xb -> convex P ->
    exists c', dc_init Rops LA c (pt x) (pt xb) sg = (c', Ok true) /\ dense_solver_ready c' d al.
  Proof.
    intros c al sg x xb (R1 & R2 & R3 & R4 & R5) Hal Hsg Vx Vb C.
    destruct (ctor_ok _ _ _ _ _ _ _ Hctor) as (DO & EP & E1 & E2 & E3).
    unfold dense_solver_ready. rewrite E1, E2, E3 in *.
    assert (Re : d_ready d (length f) (length h) (length b) al c) by (unfold d_ready, d_lsize; repeat split; congruence).
    destruct (lo_init _ _ _ _ _ _ _ _ _ (dense_ls_ok Rops LA d _ _ _ DO) al sg c x xb Re Vx Vb) as (l' & I1 & I2 & _).
    exists l'. split.
    - unfold FV in I1. cbn [denseLS ls_init] in I1. unfold at_point. rewrite I1. f_equal.
      unfold d_pinit. cbn [o_leb o_zero Rops].
      assert (X : Rleb sg 0 = false) by (apply Rleb_false; lra). rewrite X. f_equal.
      apply (convex_init LA LL d _ _ _ DO al sg x xb Hal Hsg); rewrite ?EP; try exact C.
      assert (EX : dd_H d = H).
      { destruct (dense_explicit _ _ _ _ _ _ _ Hctor) as [Ed _]. rewrite Ed. reflexivity. }
      rewrite EX. apply C.
    - destruct I2 as ((J1 & J2 & J3) & J4 & J5). auto.
  Qed.

  Theorem C34_convex_step : forall c al sg x xb r dx,
    dense_solver_ready c d al -> 0 < al < 1 -> 0 < sg -> vok x -> vok xb -> convex P -> rok r -> vok dx ->
    exists c' dx', dc_init Rops LA c (pt x) (pt xb) sg = (c', Ok true) /\
      dc_solve Rops LA c' (mkFres (length f) (length h) (length b) r al (PLive d)) (Some (pt dx)) = Ok (true, pt dx') /\
      vok dx' /\
      newton_system P sg (rg (w_gamma Rops al sg x xb (length b))) (rg (w_mus Rops al sg x xb (length b)))
        (rg (v_z dx')) (rg (v_l dx')) (rg (v_v dx')) (rg (r_z r)) (rg (r_l r)) (rg (r_v r)) /\
      forall k, (k < length b)%nat -> rg (v_y dx') k = margin P (rg (v_z dx')) k.
  Proof.
    intros c al sg x xb r dx Re Hal Hsg Vx Vb C Hr Vd.
    destruct (C34_convex_init c al sg x xb Re Hal Hsg Vx Vb C) as (c' & I1 & _).
    exists c'. destruct (C34_dense_newton_step c al sg x xb c' Re Hal Vx Vb) with (r := r) (dx := dx)
      as (dx' & S1 & S2 & S3 & S4); try assumption.
    - apply C.
    - intros dz dl dv N. destruct (ctor_ok _ _ _ _ _ _ _ Hctor) as (DO & EP & E1 & E2 & E3).
      rewrite E1, E2, E3 in DO.
      assert (W := W_ok d _ _ _ DO al sg x xb Hal Hsg). rewrite EP in W.
      destruct (newton_kernel _ _ _ _ _ _ _ C Hsg W N) as (N1 & N2 & _). split; assumption.
    - exists dx'. auto.
  Qed.
End C34.
Print Assumptions C34_dense_newton_step.
Print Assumptions C34_convex_init.
Print Assumptions C34_convex_step.
