(* C40: in exact arithmetic the result of Solve is determined by the quadratic program, the
   options and the guess: it does not depend on which of the two solvers is used. *)
From Verif Require Export PropsConvex PropsSim.
Local Open Scope R_scope.

(* ---------- specification ---------- *)
(* the same sizes and the same entries *)
Definition same_qp (P P' : QP) : Prop :=
  n_z P = n_z P' /\ n_l P = n_l P' /\ n_v P = n_v P' /\
  (forall i j, (i < n_z P)%nat -> (j < n_z P)%nat -> cH P i j = cH P' i j) /\
  (forall i, (i < n_z P)%nat -> cf P i = cf P' i) /\
  (forall k j, (k < n_l P)%nat -> (j < n_z P)%nat -> cG P k j = cG P' k j) /\
  (forall k, (k < n_l P)%nat -> ch P k = ch P' k) /\
  (forall k j, (k < n_v P)%nat -> (j < n_z P)%nat -> cA P k j = cA P' k j) /\
  (forall k, (k < n_v P)%nat -> cb P k = cb P' k).

(* ---------- proofs ---------- *)
Lemma times_mat_ext m M M' x i : (forall j, (j < m)%nat -> M i j = M' i j) -> times m M x i = times m M' x i.
Proof. intro H. apply rsum_ext. intros j Hj. rewrite H by exact Hj. reflexivity. Qed.
Lemma ttimes_mat_ext m M M' x i : (forall j, (j < m)%nat -> M j i = M' j i) -> ttimes m M x i = ttimes m M' x i.
Proof. intro H. apply rsum_ext. intros j Hj. rewrite H by exact Hj. reflexivity. Qed.

Section Same.
  Context (P P' : QP) (SQ : same_qp P P').
  Lemma same_convex : convex P -> convex P'.
  Proof.
    destruct SQ as (E1 & E2 & E3 & EH & _). intros [C1 C2]. split.
    - intros i j Hi Hj. rewrite <- E1 in *. rewrite <- !EH by assumption. auto.
    - intro z. specialize (C2 z). unfold quad in *. rewrite <- E1.
      rewrite (rsum_ext _ _ (fun i => rsum (n_z P) (fun j => z i * cH P i j * z j))); [exact C2|].
      intros i Hi. apply rsum_ext. intros j Hj. rewrite EH by assumption. reflexivity.
  Qed.
  Lemma same_margin z k : (k < n_v P)%nat -> margin P' z k = margin P z k.
  Proof.
    destruct SQ as (E1 & E2 & E3 & EH & Ef & EG & Eh & EA & Eb). intro Hk.
    unfold margin. rewrite <- E1, Eb by exact Hk. f_equal. symmetry. apply times_mat_ext. intros; apply EA; assumption.
  Qed.
  Lemma same_explicit {D} (DI : DataI R D) d : Explicit DI d P' -> Explicit DI d P.
  Proof.
    destruct SQ as (E1 & E2 & E3 & EH & Ef & EG & Eh & EA & Eb). intro EX.
    constructor.
    - intros x a b y Hx Hy. destruct (ex_H _ _ _ EX x a b y) as (r & R1 & R2 & R3); [congruence..|].
      exists r. split; [exact R1|]. split; [congruence|]. intros i Hi. rewrite R3, <- E1 by congruence. f_equal. f_equal. 
      apply times_mat_ext. intros; symmetry; apply EH; assumption.
    - intros x a b y Hx Hy. destruct (ex_G _ _ _ EX x a b y) as (r & R1 & R2 & R3); [congruence..|].
      exists r. split; [exact R1|]. split; [congruence|]. intros i Hi. rewrite R3, <- E1 by congruence. f_equal. f_equal.
      apply times_mat_ext. intros; symmetry; apply EG; assumption.
    - intros x a b y Hx Hy. destruct (ex_A _ _ _ EX x a b y) as (r & R1 & R2 & R3); [congruence..|].
      exists r. split; [exact R1|]. split; [congruence|]. intros i Hi. rewrite R3, <- E1 by congruence. f_equal. f_equal.
      apply times_mat_ext. intros; symmetry; apply EA; assumption.
    - intros x a b y Ha Hx Hy. destruct (ex_GT _ _ _ EX x a b y Ha) as (r & R1 & R2 & R3); [congruence..|].
      exists r. split; [exact R1|]. split; [congruence|]. intros i Hi. rewrite R3, <- E2 by congruence. f_equal. f_equal.
      apply ttimes_mat_ext. intros; symmetry; apply EG; assumption.
    - intros x a b y Hx Hy. destruct (ex_AT _ _ _ EX x a b y) as (r & R1 & R2 & R3); [congruence..|].
      exists r. split; [exact R1|]. split; [congruence|]. intros i Hi. rewrite R3, <- E3 by congruence. f_equal. f_equal.
      apply ttimes_mat_ext. intros; symmetry; apply EA; assumption.
    - intros a y Hy. destruct (ex_f _ _ _ EX a y) as (r & R1 & R2 & R3); [congruence..|].
      exists r. split; [exact R1|]. split; [congruence|]. intros i Hi. rewrite R3, Ef by congruence. reflexivity.
    - intros a y Hy. destruct (ex_h _ _ _ EX a y) as (r & R1 & R2 & R3); [congruence..|].
      exists r. split; [exact R1|]. split; [congruence|]. intros i Hi. rewrite R3, Eh by congruence. reflexivity.
    - intros a y Hy. destruct (ex_b _ _ _ EX a y) as (r & R1 & R2 & R3); [congruence..|].
      exists r. split; [exact R1|]. split; [congruence|]. intros i Hi. rewrite R3, Eb by congruence. reflexivity.
    - rewrite (ex_fnorm _ _ _ EX), <- E1, <- E2, <- E3. f_equal. f_equal; [f_equal|]; apply rsum_ext; intros i Hi.
      + rewrite Ef by exact Hi. reflexivity.
      + rewrite Eh by exact Hi. reflexivity.
      + rewrite Eb by exact Hi. reflexivity.
  Qed.
  Lemma same_newton sg g m dz dl dv rz rl rv :
    newton_system P' sg g m dz dl dv rz rl rv -> newton_system P sg g m dz dl dv rz rl rv.
  Proof.
    destruct SQ as (E1 & E2 & E3 & EH & Ef & EG & Eh & EA & Eb). unfold newton_system. rewrite <- E1, <- E2, <- E3.
    intros (N1 & N2 & N3). split; [|split]; intros i Hi.
    - rewrite <- N1 by exact Hi. f_equal; [f_equal; [f_equal|]|].
      + apply times_mat_ext; intros; apply EH; assumption.
      + apply ttimes_mat_ext; intros; apply EG; assumption.
      + apply ttimes_mat_ext; intros; apply EA; assumption.
    - rewrite <- N2 by exact Hi. do 2 f_equal. apply times_mat_ext; intros; apply EG; assumption.
    - rewrite <- N3 by exact Hi. do 3 f_equal. apply times_mat_ext; intros; apply EA; assumption.
  Qed.
End Same.

(* two data objects that stand for the same problem *)
Section TwoData.
  Context {P : QP} {D1 D2 : Type} {DI1 : DataI R D1} {DI2 : DataI R D2} {d1 : D1} {d2 : D2}.
  Hypothesis X1 : Explicit DI1 d1 P.
  Hypothesis X2 : Explicit DI2 d2 P.
  Notation nz := (n_z P). Notation nl := (n_l P). Notation nv := (n_v P).

  Lemma s_H x a b y y' : length x = nz -> length y = nz -> length y' = nz -> (b = 0 \/ y = y') ->
    gH DI1 d1 x a b y = gH DI2 d2 x a b y'.
  Proof.
    intros Hx Hy Hy' E. unfold gH. destruct (ex_H _ _ _ X1 x a b y Hx Hy) as (r1 & A1 & A2 & A3).
    destruct (ex_H _ _ _ X2 x a b y' Hx Hy') as (r2 & B1 & B2 & B3).
    rewrite A1, B1. cbn [unres]. apply (vec_ext Rops); [congruence|]. intros i Hi. rewrite A2 in Hi.
    rewrite A3, B3 by exact Hi. destruct E as [ -> | -> ]; ring.
  Qed.
  Lemma s_G x a b y y' : length x = nz -> length y = nl -> length y' = nl -> (b = 0 \/ y = y') ->
    gG DI1 d1 x a b y = gG DI2 d2 x a b y'.
  Proof.
    intros Hx Hy Hy' E. unfold gG. destruct (ex_G _ _ _ X1 x a b y Hx Hy) as (r1 & A1 & A2 & A3).
    destruct (ex_G _ _ _ X2 x a b y' Hx Hy') as (r2 & B1 & B2 & B3).
    rewrite A1, B1. cbn [unres]. apply (vec_ext Rops); [congruence|]. intros i Hi. rewrite A2 in Hi.
    rewrite A3, B3 by exact Hi. destruct E as [ -> | -> ]; ring.
  Qed.
  Lemma s_A x a b y y' : length x = nz -> length y = nv -> length y' = nv -> (b = 0 \/ y = y') ->
    gA DI1 d1 x a b y = gA DI2 d2 x a b y'.
  Proof.
    intros Hx Hy Hy' E. unfold gA. destruct (ex_A _ _ _ X1 x a b y Hx Hy) as (r1 & A1 & A2 & A3).
    destruct (ex_A _ _ _ X2 x a b y' Hx Hy') as (r2 & B1 & B2 & B3).
    rewrite A1, B1. cbn [unres]. apply (vec_ext Rops); [congruence|]. intros i Hi. rewrite A2 in Hi.
    rewrite A3, B3 by exact Hi. destruct E as [ -> | -> ]; ring.
  Qed.
  Lemma s_GT x y : length x = nl -> length y = nz -> gGT DI1 d1 x 1 1 y = gGT DI2 d2 x 1 1 y.
  Proof.
    intros Hx Hy. unfold gGT. destruct (ex_GT _ _ _ X1 x 1 1 y (or_introl eq_refl) Hx Hy) as (r1 & A1 & A2 & A3).
    destruct (ex_GT _ _ _ X2 x 1 1 y (or_introl eq_refl) Hx Hy) as (r2 & B1 & B2 & B3).
    rewrite A1, B1. cbn [unres]. apply (vec_ext Rops); [congruence|]. intros i Hi. rewrite A2 in Hi.
    rewrite A3, B3 by exact Hi. ring.
  Qed.
  Lemma s_AT x a b y : length x = nv -> length y = nz -> gAT DI1 d1 x a b y = gAT DI2 d2 x a b y.
  Proof.
    intros Hx Hy. unfold gAT. destruct (ex_AT _ _ _ X1 x a b y Hx Hy) as (r1 & A1 & A2 & A3).
    destruct (ex_AT _ _ _ X2 x a b y Hx Hy) as (r2 & B1 & B2 & B3).
    rewrite A1, B1. cbn [unres]. apply (vec_ext Rops); [congruence|]. intros i Hi. rewrite A2 in Hi.
    rewrite A3, B3 by exact Hi. ring.
  Qed.
  Lemma s_f a y : length y = nz -> af DI1 d1 a y = af DI2 d2 a y /\ length (af DI2 d2 a y) = nz.
  Proof.
    intros Hy. unfold af. destruct (ex_f _ _ _ X1 a y Hy) as (r1 & A1 & A2 & A3).
    destruct (ex_f _ _ _ X2 a y Hy) as (r2 & B1 & B2 & B3).
    rewrite A1, B1. cbn [unres]. split; [|exact B2]. apply (vec_ext Rops); [congruence|]. intros i Hi. rewrite A2 in Hi.
    rewrite A3, B3 by exact Hi. ring.
  Qed.
  Lemma s_h a y : length y = nl -> ah DI1 d1 a y = ah DI2 d2 a y /\ length (ah DI2 d2 a y) = nl.
  Proof.
    intros Hy. unfold ah. destruct (ex_h _ _ _ X1 a y Hy) as (r1 & A1 & A2 & A3).
    destruct (ex_h _ _ _ X2 a y Hy) as (r2 & B1 & B2 & B3).
    rewrite A1, B1. cbn [unres]. split; [|exact B2]. apply (vec_ext Rops); [congruence|]. intros i Hi. rewrite A2 in Hi.
    rewrite A3, B3 by exact Hi. ring.
  Qed.
  Lemma s_b a y : length y = nv -> ab DI1 d1 a y = ab DI2 d2 a y /\ length (ab DI2 d2 a y) = nv.
  Proof.
    intros Hy. unfold ab. destruct (ex_b _ _ _ X1 a y Hy) as (r1 & A1 & A2 & A3).
    destruct (ex_b _ _ _ X2 a y Hy) as (r2 & B1 & B2 & B3).
    rewrite A1, B1. cbn [unres]. split; [|exact B2]. apply (vec_ext Rops); [congruence|]. intros i Hi. rewrite A2 in Hi.
    rewrite A3, B3 by exact Hi. ring.
  Qed.
  Lemma l_H x a b y : length x = nz -> length y = nz -> length (gH DI2 d2 x a b y) = nz.
  Proof. intros Hx Hy. unfold gH. destruct (ex_H _ _ _ X2 x a b y Hx Hy) as (r & -> & L & _). exact L. Qed.
  Lemma l_GT x y : length x = nl -> length y = nz -> length (gGT DI2 d2 x 1 1 y) = nz.
  Proof. intros Hx Hy. unfold gGT. destruct (ex_GT _ _ _ X2 x 1 1 y (or_introl eq_refl) Hx Hy) as (r & -> & L & _). exact L. Qed.
  Lemma l_AT x a b y : length x = nv -> length y = nz -> length (gAT DI2 d2 x a b y) = nz.
  Proof. intros Hx Hy. unfold gAT. destruct (ex_AT _ _ _ X2 x a b y Hx Hy) as (r & -> & L & _). exact L. Qed.

  Lemma s_stat_z x : var_ok nz nl nv x -> stat_z Rops DI1 d1 nz x = stat_z Rops DI2 d2 nz x.
  Proof.
    intros (A & B & C & _). unfold stat_z. change (o_one Rops) with 1.
    destruct (s_f 1 (vconst nz (o_zero Rops)) (vconst_len _ _)) as [-> L0].
    rewrite (s_H (v_z x) 1 1 _ _ A L0 L0) by auto.
    assert (L1 := l_H (v_z x) 1 1 _ A L0). rewrite s_GT by assumption.
    assert (L2 := l_GT (v_l x) _ B L1). apply s_AT; assumption.
  Qed.
  Lemma s_stat_l x : var_ok nz nl nv x -> stat_l Rops DI1 d1 nl x = stat_l Rops DI2 d2 nl x.
  Proof.
    intros (A & B & C & _). unfold stat_l. change (o_one Rops) with 1.
    destruct (s_h 1 (vconst nl (o_zero Rops)) (vconst_len _ _)) as [-> L0].
    apply s_G; auto.
  Qed.
  Lemma s_margin z : length z = nz -> pmargin Rops DI1 d1 nv z = pmargin Rops DI2 d2 nv z.
  Proof.
    intro Hz. unfold pmargin. destruct (s_b (o_one Rops) (vconst nv (o_zero Rops)) (vconst_len _ _)) as [-> L0].
    apply s_A; auto.
  Qed.
  Lemma s_feas tol w1 w2 x : ws_ok nz nl nv w1 -> ws_ok nz nl nv w2 -> var_ok nz nl nv x ->
    snd (pfeas Rops DI1 d1 nz nl nv tol w1 x) = snd (pfeas Rops DI2 d2 nz nl nv tol w2 x).
  Proof.
    intros W1 W2 (A & B & C & _). unfold pfeas. destruct w1 as [[t1 t2] t3], w2 as [[u1 u2] u3].
    destruct W1 as (L1 & L2 & L3). destruct W2 as (M1 & M2 & M3). cbn [snd].
    change (o_one Rops) with 1. change (o_zero Rops) with 0.
    rewrite (s_A (v_z x) 1 0 t3 u3 A L3 M3) by auto.
    rewrite (s_G (v_z x) 1 0 t2 u2 A L2 M2) by auto.
    rewrite (s_H (v_z x) 1 0 t1 u1 A L1 M1) by auto.
    destruct (s_f 1 (vconst nz 0) (vconst_len _ _)) as [-> _].
    destruct (s_h 1 (vconst nl 0) (vconst_len _ _)) as [-> _].
    destruct (s_b 1 (vconst nv 0) (vconst_len _ _)) as [-> _].
    rewrite (s_AT (v_v x) 1 1 (vconst nz 0) C (vconst_len _ _)).
    rewrite s_GT; [reflexivity|exact B|apply l_AT; [exact C|apply vconst_len]].
  Qed.
End TwoData.

(* ---------------------------------------------------------------- C40 *)
(* LA1, LA2: any two exact linear algebras; dl: the display levels may differ; el: the same
   reading of the clock. *)
Theorem C40_same_result : forall LA1 LA2 P1 P2 o dl x1 x2 el r1 r2,
  LALaws LA1 -> LALaws LA2 -> convex P1 -> same_qp P1 P2 ->
  solves LA1 P1 o x1 el r1 -> solves LA2 P2 (with_display o dl) x2 el r2 ->
  v_z x1 = v_z x2 -> v_l x1 = v_l x2 -> v_v x1 = v_v x2 ->
  same_answer r1 r2.
Proof.
  intros LA1 LA2 P P2 o dl x1 x2 el r1 r2 L1 L2 C SQ S1 S2 Ez El Ev.
  assert (Hal := solve_alpha _ _ _ _ _ _ S1). assert (Hsg := solve_sigma _ _ _ _ _ _ S1).
  assert (C2 := same_convex _ _ SQ C).
  destruct (solves_rcall _ _ _ _ _ _ S1) as (D1 & DI1 & d1 & pi1 & ps1 & st1 & w1 & RC1).
  destruct (solves_rcall _ _ _ _ _ _ S2) as (D2 & DI2 & d2 & pi2 & ps2 & st2 & w2 & RC2).
  pose proof (rc_ex _ _ _ _ _ _ _ _ _ _ _ _ _ RC1) as EX1.
  pose proof (rc_ex _ _ _ _ _ _ _ _ _ _ _ _ _ RC2) as EX2'.
  pose proof (same_explicit _ _ SQ _ _ EX2') as EX2.
  pose proof (rc_cd _ _ _ _ _ _ _ _ _ _ _ _ _ RC1) as CD1.
  pose proof (rc_cd _ _ _ _ _ _ _ _ _ _ _ _ _ RC2) as CD2.
  pose proof (lin_newton _ _ _ _ _ _ _ L1 C EX1 (rc_lin _ _ _ _ _ _ _ _ _ _ _ _ _ RC1)) as N1.
  pose proof (lin_newton _ _ _ _ _ _ _ L2 C2 EX2' (rc_lin _ _ _ _ _ _ _ _ _ _ _ _ _ RC2)) as N2.
  pose proof (rc_y _ _ _ _ _ _ _ _ _ _ _ _ _ RC1) as Y1.
  pose proof (rc_y _ _ _ _ _ _ _ _ _ _ _ _ _ RC2) as Y2.
  assert (SZ := SQ). destruct SZ as (Q1 & Q2 & Q3 & _).
  rewrite <- Q1, <- Q2, <- Q3 in CD2, N2, Y2.
  unfold same_answer.
  rewrite (cd_run _ _ _ _ _ _ _ _ _ _ _ _ _ _ CD1), (cd_run _ _ _ _ _ _ _ _ _ _ _ _ _ _ CD2).
  apply presult_sim.
  set (pb1 := prob_of Rops DI1 d1 (n_z P) (n_l P) (n_v P) pi1 ps1 o).
  set (pb2 := prob_of Rops DI2 d2 (n_z P) (n_l P) (n_v P) pi2 ps2 (with_display o dl)).
  assert (IN : forall y yb, var_ok (n_z P) (n_l P) (n_v P) y -> pb_inner pb1 y yb = pb_inner pb2 y yb).
  { intros y yb Hy. unfold pb1, pb2. cbn [pb_inner prob_of]. unfold pinnerr.
    rewrite (s_stat_z EX1 EX2 y Hy), (s_stat_l EX1 EX2 y Hy). reflexivity. }
  apply (psolve_sim Rops o dl pb1 pb2 (@vm P) (fun u1 u2 => ws_ok (n_z P) (n_l P) (n_v P) u1 /\ ws_ok (n_z P) (n_l P) (n_v P) u2)); auto.
  - constructor.
    + intros y [Hy _]. unfold pb1, pb2. cbn [pb_pnr prob_of]. unfold ppnr.
      rewrite (s_stat_z EX1 EX2 y Hy), (s_stat_l EX1 EX2 y Hy). reflexivity.
    + intros y yb [Hy _] _. apply IN. exact Hy.
    + intros y yb [Hy _] [Hb _]. unfold pb1, pb2. cbn [pb_newton prob_of]. unfold pnewton.
      cbn [p_alpha p_sigma0 with_display].
      set (rr := rsd_neg Rops _). 
      assert (Hr : rsd_ok (n_z P) (n_l P) (n_v P) rr).
      { unfold rr. apply neg_ok. apply (cl_inner Rops _ _ _ _ _ _ _ _ _ _ _ _ _ CD2); assumption. }
      destruct (N1 (p_alpha o) (p_sigma0 o) y yb Hal Hsg) as [I1 K1].
      destruct (N2 (p_alpha o) (p_sigma0 o) y yb Hal Hsg) as [I2 K2].
      rewrite I1, I2. f_equal.
      assert (V1 := cd_step _ _ _ _ _ _ _ _ _ _ _ _ _ _ CD1 _ _ _ _ rr Hy Hb Hr I1).
      assert (V2 := cd_step _ _ _ _ _ _ _ _ _ _ _ _ _ _ CD2 _ _ _ _ rr Hy Hb Hr I2).
      specialize (K1 rr Hr). specialize (K2 rr Hr). cbv zeta in K1, K2.
      apply (same_newton _ _ SQ) in K2.
      specialize (Y1 _ _ _ _ _ V1). specialize (Y2 _ _ _ _ _ V2).
      set (a1 := ps1 _ _ y yb rr) in *. set (a2 := ps2 _ _ y yb rr) in *.
      assert (W : weights_ok P (rg (w_gamma Rops (p_alpha o) (p_sigma0 o) y yb (n_v P))) (rg (w_mus Rops (p_alpha o) (p_sigma0 o) y yb (n_v P)))).
      { intros k Hk. destruct (C33_weights (p_alpha o) (p_sigma0 o) y yb (n_v P) Hal Hsg) as (_ & _ & _ & W).
        destruct (W k Hk) as (W1 & W2 & _). auto. }
      destruct (C34_newton_unique _ _ _ _ _ _ _ _ _ _ _ _ _ C Hsg W K1 K2) as (U1 & U2 & U3).
      destruct V1 as (V11 & V12 & V13 & V14). destruct V2 as (V21 & V22 & V23 & V24).
      assert (Fz : v_z a1 = v_z a2) by (apply (vec_ext Rops); [congruence|intros i Hi; apply U1; rewrite V11 in Hi; exact Hi]).
      assert (Fl : v_l a1 = v_l a2) by (apply (vec_ext Rops); [congruence|intros i Hi; apply U2; rewrite V12 in Hi; exact Hi]).
      assert (Fv : v_v a1 = v_v a2) by (apply (vec_ext Rops); [congruence|intros i Hi; apply U3; rewrite V13 in Hi; exact Hi]).
      assert (Fy : v_y a1 = v_y a2).
      { apply (vec_ext Rops); [congruence|]. intros i Hi. rewrite V14 in Hi.
        rewrite Y1 by exact Hi. rewrite Y2 by (rewrite <- Q3; exact Hi).
        rewrite (same_margin _ _ SQ) by exact Hi. rewrite Fz. reflexivity. }
      destruct a1, a2; cbn in Fz, Fl, Fv, Fy; congruence.
    + intros y yb dx [Hy My] [Hb Mb] E.
      assert (V : var_ok (n_z P) (n_l P) (n_v P) dx) by exact (cl_newton Rops _ _ _ _ _ _ _ _ _ _ _ _ _ CD2 _ _ _ Hy Hb E).
      split; [exact V|]. revert E. unfold pb2. cbn [pb_newton prob_of]. unfold pnewton.
      destruct (pi2 _ _ y yb) as [[|]|e|u]; try discriminate. intros [= <-].
      intros k Hk. rewrite (Y2 _ _ _ _ _ V) by (rewrite <- Q3; exact Hk). apply (same_margin _ _ SQ). exact Hk.
    + intros a y z [Hy _] [Hz _]. unfold pb1, pb2. cbn [pb_axpy prob_of]. unfold paxpy.
      destruct (s_b EX1 EX2 (o_opp Rops a) (vaxpy Rops a (v_y y) (v_y z))) as [-> _]; [|reflexivity].
      autorewrite with vlen. apply Hz.
    + intros a y z Hy Hz. assert (K := vm_axpy RC1 a y z Hy Hz).
      unfold pb2. cbn [pb_axpy prob_of] in *. revert K. unfold paxpy.
      destruct (s_b EX1 EX2 (o_opp Rops a) (vaxpy Rops a (v_y y) (v_y z))) as [-> _]; [|auto].
      autorewrite with vlen. apply Hz.
    + apply vm_proj.
    + intros CF u1 u2 y [W1 W2] [Hy _]. split; [|split].
      * unfold pb1, pb2. cbn [pb_feas prob_of p_infeas_tol with_display]. apply (s_feas EX1 EX2); assumption.
      * exact (cl_feas Rops _ _ _ _ _ _ _ _ _ _ _ _ _ CD1 u1 y W1 Hy).
      * exact (cl_feas Rops _ _ _ _ _ _ _ _ _ _ _ _ _ CD2 u2 y W2 Hy).
    + unfold pb1, pb2. cbn [pb_combo prob_of]. unfold combo_of. cbn [p_abs_tol p_rel_tol with_display].
      rewrite (ex_fnorm _ _ _ EX1), (ex_fnorm _ _ _ EX2). reflexivity.
  - unfold pb1, pb2. cbn [pb_margin prob_of]. apply (s_margin EX1 EX2).
    apply (cd_guess _ _ _ _ _ _ _ _ _ _ _ _ _ _ CD2).
  - unfold pb1, pb2. cbn [pb_margin prob_of]. apply (s_margin EX1 EX2). apply vconst_len.
  - split; [exact (cl_start Rops _ _ _ _ _ _ _ _ _ _ _ _ _ CD2)|].
    intros k Hk. assert (K := vm_start RC2). destruct K as [_ K]. 
    assert (K' := K k). rewrite <- Q1, <- Q2, <- Q3 in K'. rewrite <- (same_margin _ _ SQ) by exact Hk. apply K'. exact Hk.
  - split; [exact (cl_ones Rops _ _ _ _ _ _ _ _ _ _ _ _ _ CD2)|].
    intros k Hk. cbn [pones v_y v_z].
    assert (K := margin_is RC1 (vconst (n_z P) (o_one Rops)) (vconst_len _ _) k Hk).
    rewrite <- K. f_equal. unfold pb2. cbn [pb_margin prob_of]. symmetry. apply (s_margin EX1 EX2). apply vconst_len.
  - split; [exact (cd_ws _ _ _ _ _ _ _ _ _ _ _ _ _ _ CD1)|exact (cd_ws _ _ _ _ _ _ _ _ _ _ _ _ _ _ CD2)].
Qed.

(* the two solvers on the same optimal control problem *)
Theorem C40_mpc_is_dense : forall LA N nx nu nc s nz nl nv s' qp d dqp dd k k' x el,
  LALaws LA ->
  mpc_reach Rops LA N nx nu nc s -> seqs_valid qp -> single_columns qp ->
  MpcData_ctor Rops qp = Ok d -> mpc_validate_inputs s d x = Ok tt ->
  dense_reach Rops LA nz nl nv s' ->
  DenseData_ctor Rops (Some (q_H dqp)) (Some (q_f dqp)) (Some (q_G dqp)) (Some (q_h dqp))
                      (Some (q_A dqp)) (Some (q_b dqp)) = Ok dd ->
  dense_validate s' dd x = Ok tt -> y_fits k' x (Z.to_nat nv) ->
  same_but_display (mps_options s) (ds_options s') ->
  stagewise_convex (ocp_of qp) ->
  same_qp (ocp_qp (ocp_of qp)) (qp_of (q_H dqp) (q_f dqp) (q_G dqp) (q_h dqp) (q_A dqp) (q_b dqp)) ->
  same_answer (snd (FBstabMpc_Solve Rops LA s qp k x el)) (snd (FBstabDense_Solve Rops LA s' dqp k' x el)).
Proof.
  intros LA N nx nu nc s nz nl nv s' qp d dqp dd k k' x el LL R1 V SC Ed Va R2 Edd Va2 Y [dl Ho] C SQ.
  eapply (C40_same_result LA LA) with (dl := dl); [exact LL|exact LL| |exact SQ| | | | |]; try reflexivity.
  - apply C25_convex_iff. exact C.
  - eapply sv_mpc; eassumption.
  - rewrite <- Ho. eapply sv_dense; eassumption.
Qed.
Print Assumptions C40_same_result.
Print Assumptions C40_mpc_is_dense.
