(* C59 in exact arithmetic: the example problems are convex and feasible for every horizon, so Solve
   returns on them. *)
From Verif Require Export PropsGen.
Local Open Scope R_scope.

(* ---------- what a stage must satisfy ---------- *)
Record stage_convex (st : stage R) (nx nu : nat) : Prop := {
  sc_Q : forall i j, (i < nx)%nat -> (j < nx)%nat -> rm (s_Q st) i j = rm (s_Q st) j i;
  sc_R : forall i j, (i < nu)%nat -> (j < nu)%nat -> rm (s_R st) i j = rm (s_R st) j i;
  sc_psd : forall x u, 0 <= bil nx nx (rm (s_Q st)) x x + 2 * bil nu nx (rm (s_S st)) u x + bil nu nu (rm (s_R st)) u u }.
(* an infinite trajectory that respects the constraints *)
Record stage_path (st : stage R) (nx nu nc : nat) (x u : nat -> nat -> R) : Prop := {
  sp_0 : forall i, (i < nx)%nat -> x 0%nat i = rg (s_x0 st) i;
  sp_S : forall k i, (i < nx)%nat ->
    x (S k) i = times nx (rm (s_A st)) (x k) i + times nu (rm (s_B st)) (u k) i + rg (s_c st) i;
  sp_c0 : forall i, (i < nc)%nat -> times nu (rm (s_L st)) (u 0%nat) i + rg (s_d st) i <= 0;
  sp_c : forall k i, (i < nc)%nat ->
    times nx (rm (s_E st)) (x (S k)) i + times nu (rm (s_L st)) (u (S k)) i + rg (s_d st) i <= 0 }.

(* the same up to stage N *)
Record path_until (st : stage R) (N nx nu nc : nat) (x u : nat -> nat -> R) : Prop := {
  pu_0 : forall i, (i < nx)%nat -> x 0%nat i = rg (s_x0 st) i;
  pu_S : forall k i, (k < N)%nat -> (i < nx)%nat ->
    x (S k) i = times nx (rm (s_A st)) (x k) i + times nu (rm (s_B st)) (u k) i + rg (s_c st) i;
  pu_c0 : forall i, (i < nc)%nat -> times nu (rm (s_L st)) (u 0%nat) i + rg (s_d st) i <= 0;
  pu_c : forall k i, (k < N)%nat -> (i < nc)%nat ->
    times nx (rm (s_E st)) (x (S k)) i + times nu (rm (s_L st)) (u (S k)) i + rg (s_d st) i <= 0 }.
Definition cost_of (st : stage R) (nx nu : nat) (x u : nat -> R) : R :=
  1 / 2 * (bil nx nx (rm (s_Q st)) x x + 2 * bil nu nx (rm (s_S st)) u x + bil nu nu (rm (s_R st)) u u) +
  rsum nx (fun i => rg (s_q st) i * x i) + rsum nu (fun i => rg (s_r st) i * u i).

Lemma bil_ext r c M M' u w : (forall i j, (i < r)%nat -> (j < c)%nat -> M i j = M' i j) -> bil r c M u w = bil r c M' u w.
Proof. intro H. unfold bil. apply rsum_ext. intros i Hi. apply rsum_ext. intros j Hj. rewrite H by assumption. reflexivity. Qed.
Lemma bil_zero r c M u w : (forall i j, (i < r)%nat -> (j < c)%nat -> M i j = 0) -> bil r c M u w = 0.
Proof. intro H. unfold bil. apply rsum_zero. intros i Hi. apply rsum_zero. intros j Hj. rewrite H by assumption. ring. Qed.
Lemma bil_diag n M x : (forall i j, (i < n)%nat -> (j < n)%nat -> i <> j -> M i j = 0) ->
  (forall i, (i < n)%nat -> 0 <= M i i) -> 0 <= bil n n M x x.
Proof.
  intros H0 H1. unfold bil. apply rsum_nonneg. intros i Hi.
  rewrite (rsum_single n i) by (auto; intros j Hj Hne; rewrite H0 by auto; ring).
  replace (x i * M i i * x i) with (M i i * (x i * x i)) by ring. apply Rmult_le_pos; [auto|apply Rle_0_sqr].
Qed.
Lemma times_ext n M M' x i : (forall j, (j < n)%nat -> M i j = M' i j) -> times n M x i = times n M' x i.
Proof. intro H. unfold times. apply rsum_ext. intros j Hj. rewrite H by exact Hj. reflexivity. Qed.
Lemma times_zero n M i : times n M (fun _ => 0) i = 0.
Proof. unfold times. apply rsum_zero. intros; ring. Qed.

Section Lift.
  Context (p : mpc_own R) (st : stage R) (N : Z) (nx nu nc : nat).
  Hypothesis HN : (1 <= N)%Z.
  Hypothesis HS : holds_stages Rops p st (Z.to_nat (N + 1)) nx nu nc (Z.to_nat (N + 1)).
  Hypothesis HD : holds_dynamics Rops p st (Z.to_nat N) nx nu (Z.to_nat N).
  Hypothesis HX : o_x0 p = s_x0 st.
  Notation o := (ocp_of (ref_of_own p)).

  Lemma cell_filled s n r c F k i j : filled Rops s n r c F n -> (k < n)%nat -> (i < r)%nat -> (j < c)%nat ->
    cell (map_of_mseq s) k i j = rm (F k) i j.
  Proof.
    intros H Hk Hi Hj. rewrite <- (filled_cell Rops s n r c F k i j H Hk Hi Hj).
    destruct H as ((_ & E2 & E3 & _) & _). unfold cell, map_of_mseq; cbn [mp_mem mp_nr mp_nc].
    rewrite E2, E3, !Nat2Z.id. reflexivity.
  Qed.
  Lemma o_sizes : oN o = Z.to_nat N /\ onx o = nx /\ onu o = nu /\ onc o = nc.
  Proof.
    destruct HS as [_ _ _ _ _ ((_ & E & _) & _) _ _]. destruct HD as [_ ((B1 & B2 & B3 & _) & _) _].
    unfold ocp_of, ref_of_own, map_of_mseq; cbn [oN onx onu onc m_B m_E mp_N mp_nr mp_nc].
    rewrite B1, B2, B3, E, !Nat2Z.id. auto.
  Qed.
  Lemma lift_convex : stage_convex st nx nu -> stagewise_convex o.
  Proof.
    intros [CQ CR CP]. destruct o_sizes as (E1 & E2 & E3 & E4). destruct HS as [HQ HR HSS _ _ _ _ _].
    assert (KN : forall k, (k < oN o + 1)%nat -> (k < Z.to_nat (N + 1))%nat) by (intros k Hk; rewrite E1 in Hk; lia).
    unfold stagewise_convex. rewrite E2, E3. split; [|split].
    - intros k i j Hk Hi Hj. cbn [ocp_of cQ ref_of_own m_Q]. rewrite !(cell_filled _ _ _ _ _ _ _ _ HQ) by auto. auto.
    - intros k i j Hk Hi Hj. cbn [ocp_of cR ref_of_own m_R]. rewrite !(cell_filled _ _ _ _ _ _ _ _ HR) by auto. auto.
    - intros k x u Hk. specialize (CP x u). specialize (KN k Hk).
      rewrite (bil_ext nx nx (cQ o k) (rm (s_Q st))), (bil_ext nu nx (cS o k) (rm (s_S st))), (bil_ext nu nu (cR o k) (rm (s_R st)));
        [exact CP| | |]; intros i j Hi Hj; cbn [ocp_of cQ cR cS ref_of_own m_Q m_R m_S].
      + exact (cell_filled _ _ _ _ _ k i j HR KN Hi Hj).
      + exact (cell_filled _ _ _ _ _ k i j HSS KN Hi Hj).
      + exact (cell_filled _ _ _ _ _ k i j HQ KN Hi Hj).
  Qed.
  Lemma lift_iff x u : mat_is (s_E st) nc nx -> trajectory o x u <-> path_until st (Z.to_nat N) nx nu nc x u.
  Proof.
    intros (ER & EC & _). destruct o_sizes as (E1 & E2 & E3 & E4).
    destruct HS as [_ _ _ _ _ HE HL Hd]. destruct HD as [HA HB Hc].
    assert (X : forall i, ox0 o i = rg (s_x0 st) i) by (intro i; cbn [ocp_of ox0 ref_of_own m_x0]; rewrite HX; reflexivity).
    assert (DY : forall k i, (k < Z.to_nat N)%nat -> (i < nx)%nat ->
      times nx (oA o k) (x k) i + times nu (oB o k) (u k) i + oc o k i =
      times nx (rm (s_A st)) (x k) i + times nu (rm (s_B st)) (u k) i + rg (s_c st) i).
    { intros k i Hk Hi. cbn [ocp_of oA oB oc ref_of_own m_A m_B m_c].
      rewrite (times_ext nx _ (rm (s_A st))) by (intros; apply (cell_filled _ _ _ _ _ _ _ _ HA); assumption).
      rewrite (times_ext nu _ (rm (s_B st))) by (intros; apply (cell_filled _ _ _ _ _ _ _ _ HB); assumption).
      rewrite (cell_filled _ _ _ _ _ k i 0%nat Hc Hk Hi ltac:(lia)). reflexivity. }
    assert (CO : forall k i, (k < Z.to_nat N + 1)%nat -> (i < nc)%nat ->
      times nx (oE o k) (x k) i + times nu (oL o k) (u k) i + od o k i =
      (if (k =? 0)%nat then 0 else times nx (rm (s_E st)) (x k) i) + times nu (rm (s_L st)) (u k) i + rg (s_d st) i).
    { intros k i Hk Hi. assert (Hk' : (k < Z.to_nat (N + 1))%nat) by lia.
      cbn [ocp_of oE oL od ref_of_own m_E m_L m_d].
      rewrite (times_ext nx _ (rm (stage_E Rops st k))) by (intros; apply (cell_filled _ _ _ _ _ _ _ _ HE); assumption).
      rewrite (times_ext nu _ (rm (s_L st))) by (intros; apply (cell_filled _ _ _ _ _ _ _ _ HL); assumption).
      rewrite (cell_filled _ _ _ _ _ k i 0%nat Hd Hk' Hi ltac:(lia)).
      change (rm (colmat (s_d st)) i 0) with (rg (s_d st) i). unfold stage_E.
      destruct (k =? 0)%nat; [|reflexivity].
      replace (times nx (rm (mzero Rops (mr (s_E st)) (mc (s_E st)))) (x k) i) with 0; [reflexivity|].
      symmetry. unfold times. apply rsum_zero. intros j Hj. unfold mzero. rewrite ER, EC, (mget_mtab Rops) by assumption. apply Rmult_0_l. }
    unfold trajectory. rewrite E1, E2, E3, E4. split.
    - intros (P0 & PS & PC). constructor.
      + intros i Hi. rewrite <- X. auto.
      + intros k i Hk Hi. rewrite <- DY by assumption. auto.
      + intros i Hi. specialize (PC 0%nat i ltac:(lia) Hi). rewrite CO in PC by lia. cbn [Nat.eqb] in PC. lra.
      + intros k i Hk Hi. specialize (PC (S k) i ltac:(lia) Hi). rewrite CO in PC by lia. cbn [Nat.eqb] in PC. exact PC.
    - intros [P0 PS PC0 PC]. split; [|split].
      + intros i Hi. rewrite X. auto.
      + intros k i Hk Hi. rewrite DY by assumption. auto.
      + intros k i Hk Hi. rewrite CO by assumption. destruct k as [|k]; cbn [Nat.eqb].
        * specialize (PC0 i Hi). lra.
        * apply PC; [lia|exact Hi].
  Qed.
  Lemma lift_path x u : mat_is (s_E st) nc nx -> stage_path st nx nu nc x u -> trajectory o x u.
  Proof. intros ME [P0 PS PC0 PC]. apply lift_iff; [exact ME|]. constructor; auto. Qed.
  Lemma lift_cost x u : total_cost o x u = rsum (Z.to_nat N + 1) (fun k => cost_of st nx nu (x k) (u k)).
  Proof.
    destruct o_sizes as (E1 & E2 & E3 & E4). destruct HS as [HQ HR HSS Hq Hr _ _ _].
    unfold total_cost. rewrite E1. apply rsum_ext. intros k Hk. assert (KN : (k < Z.to_nat (N + 1))%nat) by lia.
    unfold stage_cost, cost_of. rewrite E2, E3.
    rewrite (bil_ext nx nx (cQ o k) (rm (s_Q st))), (bil_ext nu nx (cS o k) (rm (s_S st))), (bil_ext nu nu (cR o k) (rm (s_R st))).
    - f_equal; [f_equal|]; apply rsum_ext; intros i Hi; cbn [ocp_of cq cr ref_of_own m_q m_r].
      + rewrite (cell_filled _ _ _ _ _ k i 0%nat Hq KN Hi ltac:(lia)). reflexivity.
      + rewrite (cell_filled _ _ _ _ _ k i 0%nat Hr KN Hi ltac:(lia)). reflexivity.
    - intros i j Hi Hj. exact (cell_filled _ _ _ _ _ k i j HR KN Hi Hj).
    - intros i j Hi Hj. exact (cell_filled _ _ _ _ _ k i j HSS KN Hi Hj).
    - intros i j Hi Hj. exact (cell_filled _ _ _ _ _ k i j HQ KN Hi Hj).
  Qed.
End Lift.

(* ---------- the four examples ---------- *)
Ltac comp := cbv -[IZR Rplus Rmult Rminus Ropp Rdiv Rinv Rle Rlt sqrt lt].
Ltac comp_in H := cbv -[IZR Rplus Rmult Rminus Ropp Rdiv Rinv Rle Rlt sqrt lt] in H.

Lemma di_convex : stage_convex (di_stage Rops) 2 1.
Proof.
  constructor.
  - intros [|[|i]] [|[|j]] Hi Hj; try lia; comp; reflexivity.
  - intros [|i] [|j] Hi Hj; try lia; comp; reflexivity.
  - intros x u. comp. nra.
Qed.
Lemma di_path : stage_path (di_stage Rops) 2 1 6 (fun _ _ => 0) (fun _ _ => 0).
Proof.
  constructor; intros; rewrite ?times_zero.
  - destruct i as [|[|i]]; try lia; comp; lra.
  - destruct i as [|[|i]]; try lia; comp; lra.
  - destruct i as [|[|[|[|[|[|i]]]]]]; try lia; comp; lra.
  - destruct i as [|[|[|[|[|[|i]]]]]]; try lia; comp; lra.
Qed.
Lemma servo_convex : stage_convex (servo_stage Rops) 4 1.
Proof.
  constructor.
  - intros i j Hi Hj. do 4 (destruct i as [|i]; [do 4 (destruct j as [|j]; [comp; reflexivity|]); lia|]). lia.
  - intros [|i] [|j] Hi Hj; try lia; comp; reflexivity.
  - intros x u. rewrite (bil_zero 1 4 (rm (s_S (servo_stage Rops)))).
    + assert (0 <= bil 4 4 (rm (s_Q (servo_stage Rops))) x x).
      { apply bil_diag.
        - intros i j Hi Hj N. do 4 (destruct i as [|i]; [do 4 (destruct j as [|j]; [try congruence; comp; reflexivity|]); lia|]). lia.
        - intros i Hi. do 4 (destruct i as [|i]; [comp; lra|]). lia. }
      assert (0 <= bil 1 1 (rm (s_R (servo_stage Rops))) u u).
      { apply bil_diag; [intros; lia|]. intros [|i] Hi; [comp; lra|lia]. }
      lra.
    + intros [|i] j Hi Hj; [|lia]. do 4 (destruct j as [|j]; [comp; reflexivity|]). lia.
Qed.
Lemma servo_path : stage_path (servo_stage Rops) 4 1 4 (fun _ _ => 0) (fun _ _ => 0).
Proof.
  constructor; intros; rewrite ?times_zero; do 4 (destruct i as [|i]; [comp; lra|]); lia.
Qed.

Lemma gram_entry C r c i j : mr C = r -> mc C = c -> (i < c)%nat -> (j < c)%nat ->
  rm (mm Rops (mtrans Rops C) C) i j = rsum r (fun a => rm C a i * rm C a j).
Proof.
  intros ER EC Hi Hj. subst r c. unfold mm. rewrite (mget_mtab Rops) by exact Hi || exact Hj.
  cbn [o_dot Rops]. rewrite Rdot_rsum by (unfold mrow, mcol; rewrite !tab_length; reflexivity).
  unfold mrow. rewrite tab_length. cbn [mtrans mtab mc]. apply rsum_ext. intros a Ha.
  unfold mcol. rewrite vget_tab by exact Ha. rewrite vget_tab by exact Ha. unfold mtrans. rewrite (mget_mtab Rops) by assumption. reflexivity.
Qed.
Lemma gram_sum C r c x : mr C = r -> mc C = c ->
  bil c c (rm (mm Rops (mtrans Rops C) C)) x x = rsum r (fun a => times c (rm C) x a * times c (rm C) x a).
Proof.
  intros ER EC. rewrite (bil_ext c c _ (fun i j => rsum r (fun a => rm C a i * rm C a j))) by (intros; apply (gram_entry C r c); assumption).
  unfold bil, times.
  assert (E1 : forall i j, x i * rsum r (fun a => rm C a i * rm C a j) * x j = rsum r (fun a => (rm C a i * x i) * (rm C a j * x j))).
  { intros i j. rewrite <- rsum_scal, <- rsum_scal_r. apply rsum_ext. intros; ring. }
  rewrite (rsum_ext c (fun i => rsum c (fun j => x i * rsum r (fun a => rm C a i * rm C a j) * x j))
             (fun i => rsum r (fun a => rsum c (fun j => (rm C a i * x i) * (rm C a j * x j))))).
  - rewrite rsum_swap. apply rsum_ext. intros a Ha. rewrite <- rsum_scal_r. apply rsum_ext. intros i Hi. rewrite rsum_scal. reflexivity.
  - intros i Hi. rewrite rsum_swap. apply rsum_ext. intros j Hj. apply E1.
Qed.
Lemma bil_gram C r c x : mr C = r -> mc C = c -> 0 <= bil c c (rm (mm Rops (mtrans Rops C) C)) x x.
Proof. intros ER EC. rewrite (gram_sum C r c x ER EC). apply rsum_nonneg. intros; apply Rle_0_sqr. Qed.
Lemma reactor_convex sin : stage_convex (reactor_stage Rops sin) 18 5.
Proof.
  constructor; unfold reactor_stage; cbn [s_Q s_R s_S].
  - intros i j Hi Hj. rewrite !(gram_entry (reactor_C Rops) 4 18) by (reflexivity || assumption). apply rsum_ext. intros; ring.
  - intros i j Hi Hj. unfold meye. rewrite !(mget_mtab Rops) by assumption. rewrite (Nat.eqb_sym j i). reflexivity.
  - intros x u. rewrite (bil_zero 5 18).
    + assert (A := bil_gram (reactor_C Rops) 4 18 x eq_refl eq_refl).
      assert (0 <= bil 5 5 (rm (meye Rops 5 (o_dec Rops 1 (-1)))) u u).
      { apply bil_diag; intros; unfold meye; rewrite !(mget_mtab Rops) by assumption.
        - destruct (Nat.eqb_spec i j); [contradiction|]. cbn. ring.
        - rewrite Nat.eqb_refl. cbn. unfold Rdec. cbn. lra. }
      lra.
    + intros i j Hi Hj. unfold mzero. rewrite (mget_mtab Rops) by assumption. reflexivity.
Qed.
Section Reactor.
  Context (sin : R -> R).
  Notation st := (reactor_stage Rops sin).
  Fixpoint free_path (k : nat) : nat -> R :=
    match k with O => rg (s_x0 st) | S k => fun i => times 18 (rm (s_A st)) (free_path k) i end.
  Lemma reactor_path : stage_path st 18 5 10 free_path (fun _ _ => 0).
  Proof.
    assert (D : forall i, (i < 10)%nat -> rg (s_d st) i <= 0).
    { intros i Hi. unfold reactor_stage; cbn [s_d]. unfold vones, vconst. rewrite vget_tab by exact Hi. cbn. unfold Rdec. cbn. lra. }
    constructor; intros; rewrite ?times_zero.
    - reflexivity.
    - assert (Z : rg (s_c st) i = 0) by (unfold reactor_stage; cbn [s_c]; unfold vconst; rewrite vget_tab by assumption; reflexivity).
      rewrite Z, !Rplus_0_r. reflexivity.
    - specialize (D i H). lra.
    - specialize (D i H). replace (times 18 (rm (s_E st)) (free_path (S k)) i) with 0; [lra|].
      generalize (free_path (S k)). intro f.
      symmetry. unfold times. apply rsum_zero. intros j Hj. unfold reactor_stage; cbn [s_E]. unfold mzero. rewrite (mget_mtab Rops) by assumption. apply Rmult_0_l.
  Qed.
End Reactor.

Lemma craft_convex : stage_convex (craft_stage Rops) 6 3.
Proof.
  constructor; unfold craft_stage; cbn [s_Q s_R s_S].
  - intros i j Hi Hj. do 6 (destruct i as [|i]; [do 6 (destruct j as [|j]; [comp; reflexivity|]); lia|]). lia.
  - intros i j Hi Hj. do 3 (destruct i as [|i]; [do 3 (destruct j as [|j]; [comp; reflexivity|]); lia|]). lia.
  - intros x u. rewrite (bil_zero 3 6).
    + match goal with |- 0 <= bil 6 6 ?M x x + _ + bil 3 3 ?M' u u =>
        assert (0 <= bil 6 6 M x x); [|assert (0 <= bil 3 3 M' u u); [|lra]] end.
      * apply bil_diag.
        -- intros i j Hi Hj N. do 6 (destruct i as [|i]; [do 6 (destruct j as [|j]; [try congruence; comp; reflexivity|]); lia|]). lia.
        -- intros i Hi. do 6 (destruct i as [|i]; [comp; lra|]). lia.
      * apply bil_diag.
        -- intros i j Hi Hj N. do 3 (destruct i as [|i]; [do 3 (destruct j as [|j]; [try congruence; comp; reflexivity|]); lia|]). lia.
        -- intros i Hi. do 3 (destruct i as [|i]; [comp; lra|]). lia.
    + intros i j Hi Hj. unfold mzero. rewrite (mget_mtab Rops) by assumption. reflexivity.
Qed.
(* the mean motion of the orbit *)
Definition motion : R := sqrt (3986004418 / 10000 / ((6371 + 650) * (6371 + 650) * (6371 + 650))).
Lemma motion_sq : 0 <= motion * motion <= 1152 / 1000000000.
Proof. unfold motion. rewrite sqrt_sqrt by lra. lra. Qed.
(* stay in place: after the first step the velocity is 30 times the acceleration, and is cancelled *)
Definition hover_x (k i : nat) : R :=
  nth i (match k with
         | O => [-28/10; -1/100; -1; 0; 0; 0]
         | S _ => [-28/10; -1/100; -1; -168 * (motion * motion); 0; 30 * (motion * motion)]
         end) 0.
Definition hover_u (k i : nat) : R :=
  nth i (match k with O => [0; 0; 0] | S _ => [56/10 * (motion * motion); 0; - (motion * motion)] end) 0.
Definition tA : list R := let m := motion in
  [1; 0; 0; 30; 0; 0;  0; 1; 0; 0; 30; 0;  0; 0; 1; 0; 0; 30;
   60 * m * m; 0; 0; 1; 60 * m; 0;  0; 0; 0; -60 * m; 1; 0;  0; 0; -30 * m * m; 0; 0; 1].
Definition tB : list R := let m := motion in
  [900; 0; 0;  0; 900; 0;  0; 0; 900;  30; 1800 * m; 0;  -1800 * m; 30; 0;  0; 0; 30].
Lemma craft_A i j : (i < 6)%nat -> (j < 6)%nat -> rm (s_A (craft_stage Rops)) i j = nth (i * 6 + j) tA 0.
Proof.
  intros Hi Hj. unfold tA. set (m := motion).
  assert (EM : sqrt (IZR 3986004418 / IZR 10000 / ((IZR 6371 + IZR 650) * (IZR 6371 + IZR 650) * (IZR 6371 + IZR 650))) = m) by reflexivity.
  clearbody m.
  do 6 (destruct i as [|i]; [do 6 (destruct j as [|j]; [comp; rewrite ?EM; ring|]); lia|]). lia.
Qed.
Lemma craft_B i j : (i < 6)%nat -> (j < 3)%nat -> rm (s_B (craft_stage Rops)) i j = nth (i * 3 + j) tB 0.
Proof.
  intros Hi Hj. unfold tB. set (m := motion).
  assert (EM : sqrt (IZR 3986004418 / IZR 10000 / ((IZR 6371 + IZR 650) * (IZR 6371 + IZR 650) * (IZR 6371 + IZR 650))) = m) by reflexivity.
  clearbody m.
  do 6 (destruct i as [|i]; [do 3 (destruct j as [|j]; [comp; rewrite ?EM; ring|]); lia|]). lia.
Qed.
Lemma craft_path : stage_path (craft_stage Rops) 6 3 12 hover_x hover_u.
Proof.
  pose proof motion_sq as MS.
  constructor.
  - intros i Hi. do 6 (destruct i as [|i]; [comp; lra|]). lia.
  - intros k i Hi.
    rewrite (times_ext 6 _ (fun i j => nth (i * 6 + j) tA 0)) by (intros; apply craft_A; assumption).
    rewrite (times_ext 3 _ (fun i j => nth (i * 3 + j) tB 0)) by (intros; apply craft_B; assumption).
    replace (rg (s_c (craft_stage Rops)) i) with 0
      by (unfold craft_stage; cbn [s_c]; unfold vconst; rewrite vget_tab by exact Hi; reflexivity).
    unfold tA, tB, hover_x, hover_u. generalize motion as m. intro m. unfold times.
    destruct k as [|k]; do 6 (destruct i as [|i]; [cbn [rsum nth Nat.mul Nat.add]; field|]); lia.
  - intros i Hi. unfold hover_u. do 12 (destruct i as [|i]; [comp; lra|]). lia.
  - intros k i Hi. unfold hover_x, hover_u. revert MS. generalize motion as m. intros m MS.
    set (mm := m * m) in *. clearbody mm. do 12 (destruct i as [|i]; [comp; lra|]). lia.
Qed.

(* ---------- the properties ---------- *)
Lemma convex_of e sin : let '(nx, nu, nc) := sizes_of e in stage_convex (stage_of Rops sin e) nx nu.
Proof. destruct e; [exact di_convex|exact servo_convex|exact craft_convex|exact (reactor_convex sin)]. Qed.
Lemma path_of e sin : let '(nx, nu, nc) := sizes_of e in exists x u, stage_path (stage_of Rops sin e) nx nu nc x u.
Proof.
  destruct e; do 2 eexists; [exact di_path|exact servo_path|exact craft_path|exact (reactor_path sin)].
Qed.

(* The optimal control problem of an example is convex and its constraints can be met, for every horizon
   and whatever the generator was used for before. *)
Theorem C59_convex_feasible : forall sin e g N g' p, (1 <= N)%Z -> horizon_fits e N ->
  method Rops sin e g N = (g', Ok tt) -> GetFBstabInput g' = Ok p ->
  stagewise_convex (ocp_of (ref_of_own p)) /\ exists x u, trajectory (ocp_of (ref_of_own p)) x u.
Proof.
  intros sin e g N g' p HN HF M G. pose proof (created Rops sin e g N HN HF) as K.
  pose proof (stage_sizes_of Rops sin e) as SS. pose proof (convex_of e sin) as SC. pose proof (path_of e sin) as SP.
  destruct (sizes_of e) as [[nx nu] nc]. destruct K as (g'' & p' & E1 & E2 & _ & _ & HS & HD & X0).
  rewrite M in E1. injection E1 as <-. rewrite G in E2. injection E2 as <-. split.
  - exact (lift_convex p _ N nx nu nc HN HS HD SC).
  - destruct SP as (x & u & SP). exists x, u. exact (lift_path p _ N nx nu nc HN HS HD X0 x u (ss_E _ _ _ _ SS) SP).
Qed.

(* What the problems are, in mathematical terms. *)
Lemma example_path sin e g N g' p x u : (1 <= N)%Z -> horizon_fits e N ->
  method Rops sin e g N = (g', Ok tt) -> GetFBstabInput g' = Ok p -> let '(nx, nu, nc) := sizes_of e in
  (trajectory (ocp_of (ref_of_own p)) x u <-> path_until (stage_of Rops sin e) (Z.to_nat N) nx nu nc x u) /\
  total_cost (ocp_of (ref_of_own p)) x u = rsum (Z.to_nat N + 1) (fun k => cost_of (stage_of Rops sin e) nx nu (x k) (u k)).
Proof.
  intros HN HF M G. pose proof (created Rops sin e g N HN HF) as K. pose proof (stage_sizes_of Rops sin e) as SS.
  destruct (sizes_of e) as [[nx nu] nc]. destruct K as (g'' & p' & E1 & E2 & _ & _ & HS & HD & X0).
  rewrite M in E1. injection E1 as <-. rewrite G in E2. injection E2 as <-. split.
  - exact (lift_iff p _ N nx nu nc HN HS HD X0 x u (ss_E _ _ _ _ SS)).
  - exact (lift_cost p _ N nx nu nc HN HS HD x u).
Qed.

(* position and velocity between 0 and 2 after the start, acceleration between -1 and 1 *)
Theorem C59_double_integrator : forall g N g' p x u, (1 <= N)%Z -> horizon_fits double_integrator N ->
  DoubleIntegrator Rops g N = (g', Ok tt) -> GetFBstabInput g' = Ok p ->
  (trajectory (ocp_of (ref_of_own p)) x u <->
     x 0%nat 0%nat = 0 /\ x 0%nat 1%nat = 0 /\
     (forall k, (k < Z.to_nat N)%nat -> x (S k) 0%nat = x k 0%nat + x k 1%nat /\ x (S k) 1%nat = x k 1%nat + u k 0%nat) /\
     (forall k, (k <= Z.to_nat N)%nat -> -1 <= u k 0%nat <= 1) /\
     (forall k, (1 <= k <= Z.to_nat N)%nat -> 0 <= x k 0%nat <= 2 /\ 0 <= x k 1%nat <= 2)) /\
  total_cost (ocp_of (ref_of_own p)) x u =
    rsum (Z.to_nat N + 1) (fun k => let a := x k 0%nat in let b := x k 1%nat in let c := u k 0%nat in
      a * a + b * b / 2 + 3 * (c * c) / 2 + a * c - 2 * a).
Proof.
  intros g N g' p x u HN HF M G.
  destruct (example_path (fun x => x) double_integrator g N g' p x u HN HF M G) as (T & C). split.
  - rewrite T. clear T C. cbn [sizes_of stage_of]. split.
    + intros [P0 PS PC0 PC].
      split; [rewrite (P0 0%nat ltac:(lia)); comp; ring|].
      split; [rewrite (P0 1%nat ltac:(lia)); comp; ring|].
      split; [intros k Hk; pose proof (PS k 0%nat Hk ltac:(lia)) as A; pose proof (PS k 1%nat Hk ltac:(lia)) as B;
              comp_in A; comp_in B; lra|].
      split.
      * intros [|k] Hk.
        -- pose proof (PC0 4%nat ltac:(lia)) as A. pose proof (PC0 5%nat ltac:(lia)) as B. comp_in A. comp_in B. lra.
        -- pose proof (PC k 4%nat ltac:(lia) ltac:(lia)) as A. pose proof (PC k 5%nat ltac:(lia) ltac:(lia)) as B.
           comp_in A. comp_in B. lra.
      * intros [|k] Hk; [lia|].
        pose proof (PC k 0%nat ltac:(lia) ltac:(lia)) as A. pose proof (PC k 1%nat ltac:(lia) ltac:(lia)) as B.
        pose proof (PC k 2%nat ltac:(lia) ltac:(lia)) as A'. pose proof (PC k 3%nat ltac:(lia) ltac:(lia)) as B'.
        comp_in A. comp_in B. comp_in A'. comp_in B'. lra.
    + intros (A & B & D & U & X). constructor.
      * intros i Hi. do 2 (destruct i as [|i]; [comp; lra|]). lia.
      * intros k i Hk Hi. destruct (D k Hk). do 2 (destruct i as [|i]; [comp; lra|]). lia.
      * intros i Hi. destruct (U 0%nat ltac:(lia)). do 6 (destruct i as [|i]; [comp; lra|]). lia.
      * intros k i Hk Hi. destruct (U (S k) ltac:(lia)). destruct (X (S k) ltac:(lia)) as ([] & []).
        do 6 (destruct i as [|i]; [comp; lra|]). lia.
  - rewrite C. apply rsum_ext. intros k _. cbv zeta. cbn [sizes_of stage_of]. comp. field.
Qed.
(* a motor driving a load through a flexible shaft, forward Euler with period 1/20: torque and voltage
   are bounded, the load position should follow 30 degrees *)
Theorem C59_servo_motor : forall g N g' p x u, (1 <= N)%Z -> horizon_fits servo_motor N ->
  ServoMotor Rops g N = (g', Ok tt) -> GetFBstabInput g' = Ok p ->
  let torque k := 12802 / 10 * (x k 0%nat - x k 2%nat / 20) in
  (trajectory (ocp_of (ref_of_own p)) x u <->
     (forall i, (i < 4)%nat -> x 0%nat i = 0) /\
     (forall k, (k < Z.to_nat N)%nat ->
        (x (S k) 0%nat - x k 0%nat) * 20 = x k 1%nat /\
        (x (S k) 1%nat - x k 1%nat) * 20 = - torque k / 10 - 25 / 10 * x k 1%nat /\
        (x (S k) 2%nat - x k 2%nat) * 20 = x k 3%nat /\
        (x (S k) 3%nat - x k 3%nat) * 20 = torque k / 10 - 102 / 10 * x k 3%nat + u k 0%nat) /\
     (forall k, (k <= Z.to_nat N)%nat -> -220 <= u k 0%nat <= 220) /\
     (forall k, (1 <= k <= Z.to_nat N)%nat -> - (785358 / 10000) <= torque k <= 785358 / 10000)) /\
  total_cost (ocp_of (ref_of_own p)) x u =
    rsum (Z.to_nat N + 1) (fun k => let target := 30 * (31415926535897 / 10000000000000) / 180 in
      500 * (x k 0%nat * x k 0%nat) - 1000 * target * x k 0%nat + u k 0%nat * u k 0%nat / 20000).
Proof.
  intros g N g' p x u HN HF M G torque. unfold torque; clear torque.
  destruct (example_path (fun x => x) servo_motor g N g' p x u HN HF M G) as (T & C). split.
  - rewrite T. clear T C. cbn [sizes_of stage_of]. split.
    + intros [P0 PS PC0 PC].
      split; [intros i Hi; rewrite (P0 i Hi); do 4 (destruct i as [|i]; [comp; ring|]); lia|].
      split; [intros k Hk; pose proof (PS k 0%nat Hk ltac:(lia)) as A; pose proof (PS k 1%nat Hk ltac:(lia)) as B;
              pose proof (PS k 2%nat Hk ltac:(lia)) as A'; pose proof (PS k 3%nat Hk ltac:(lia)) as B';
              comp_in A; comp_in B; comp_in A'; comp_in B'; lra|].
      split.
      * intros [|k] Hk.
        -- pose proof (PC0 2%nat ltac:(lia)) as A. pose proof (PC0 3%nat ltac:(lia)) as B. comp_in A. comp_in B. lra.
        -- pose proof (PC k 2%nat ltac:(lia) ltac:(lia)) as A. pose proof (PC k 3%nat ltac:(lia) ltac:(lia)) as B.
           comp_in A. comp_in B. lra.
      * intros [|k] Hk; [lia|].
        pose proof (PC k 0%nat ltac:(lia) ltac:(lia)) as A. pose proof (PC k 1%nat ltac:(lia) ltac:(lia)) as B.
        comp_in A. comp_in B. lra.
    + intros (A & D & U & X). constructor.
      * intros i Hi. rewrite (A i Hi). do 4 (destruct i as [|i]; [comp; lra|]). lia.
      * intros k i Hk Hi. destruct (D k Hk) as (D0 & D1 & D2 & D3). do 4 (destruct i as [|i]; [comp; lra|]). lia.
      * intros i Hi. destruct (U 0%nat ltac:(lia)). do 4 (destruct i as [|i]; [comp; lra|]). lia.
      * intros k i Hk Hi. destruct (U (S k) ltac:(lia)). destruct (X (S k) ltac:(lia)).
        do 4 (destruct i as [|i]; [comp; lra|]). lia.
  - rewrite C. apply rsum_ext. intros k _. cbv zeta. cbn [sizes_of stage_of]. comp. field.
Qed.

(* relative motion on a circular orbit with mean motion n, sampled every 30 s; the thrust first changes
   the velocity v to w = v + 30 u *)
Theorem C59_spacecraft : forall g N g' p x u, (1 <= N)%Z -> horizon_fits spacecraft N ->
  SpacecraftRelativeMotion Rops g N = (g', Ok tt) -> GetFBstabInput g' = Ok p ->
  let n := sqrt (3986004418 / 10000 / ((6371 + 650) * (6371 + 650) * (6371 + 650))) in
  let w k i := x k (3 + i)%nat + 30 * u k i in
  (trajectory (ocp_of (ref_of_own p)) x u <->
     (x 0%nat 0%nat = -28/10 /\ x 0%nat 1%nat = -1/100 /\ x 0%nat 2%nat = -1 /\
      x 0%nat 3%nat = 0 /\ x 0%nat 4%nat = 0 /\ x 0%nat 5%nat = 0) /\
     (forall k, (k < Z.to_nat N)%nat ->
        (forall i, (i < 3)%nat -> x (S k) i = x k i + 30 * w k i) /\
        x (S k) 3%nat = w k 0%nat + 30 * (2 * n * n * x k 0%nat + 2 * n * w k 1%nat) /\
        x (S k) 4%nat = w k 1%nat - 30 * (2 * n * w k 0%nat) /\
        x (S k) 5%nat = w k 2%nat - 30 * (n * n * x k 2%nat)) /\
     (forall k i, (k <= Z.to_nat N)%nat -> (i < 3)%nat -> -1/1000 <= u k i <= 1/1000) /\
     (forall k i, (1 <= k <= Z.to_nat N)%nat -> (i < 3)%nat -> -1/1000 <= x k (3 + i)%nat <= 1/1000)) /\
  total_cost (ocp_of (ref_of_own p)) x u =
    rsum (Z.to_nat N + 1) (fun k =>
      rsum 3 (fun i => x k i * x k i + x k (3 + i)%nat * x k (3 + i)%nat / 1000 + u k i * u k i) / 2).
Proof.
  intros g N g' p x u HN HF M G n w. unfold w; clear w.
  destruct (example_path (fun x => x) spacecraft g N g' p x u HN HF M G) as (T & C). split.
  - rewrite T. clear T C M G. cbn [sizes_of stage_of].
    assert (DY : forall k i, (i < 6)%nat ->
      times 6 (rm (s_A (craft_stage Rops))) (x k) i + times 3 (rm (s_B (craft_stage Rops))) (u k) i + rg (s_c (craft_stage Rops)) i =
      times 6 (fun i j => nth (i * 6 + j) tA 0) (x k) i + times 3 (fun i j => nth (i * 3 + j) tB 0) (u k) i).
    { intros k i Hi. 
      rewrite (times_ext 6 _ (fun i j => nth (i * 6 + j) tA 0)) by (intros; apply craft_A; assumption).
      rewrite (times_ext 3 _ (fun i j => nth (i * 3 + j) tB 0)) by (intros; apply craft_B; assumption).
      replace (rg (s_c (craft_stage Rops)) i) with 0
        by (unfold craft_stage; cbn [s_c]; unfold vconst; rewrite vget_tab by exact Hi; reflexivity). ring. }
    unfold tA, tB in DY. change motion with n in DY. clearbody n.
    split.
    + intros [P0 PS PC0 PC]. split.
      { pose proof (P0 0%nat ltac:(lia)) as A0. pose proof (P0 1%nat ltac:(lia)) as A1. pose proof (P0 2%nat ltac:(lia)) as A2.
        pose proof (P0 3%nat ltac:(lia)) as A3. pose proof (P0 4%nat ltac:(lia)) as A4. pose proof (P0 5%nat ltac:(lia)) as A5.
        comp_in A0; comp_in A1; comp_in A2; comp_in A3; comp_in A4; comp_in A5; lra. }
      split.
      { intros k Hk. split; [|split; [|split]].
        - intros i Hi. rewrite (PS k i Hk ltac:(lia)), DY by lia.
          do 3 (destruct i as [|i]; [unfold times; cbn [rsum nth Nat.mul Nat.add]; ring|]); lia.
        - rewrite (PS k 3%nat Hk ltac:(lia)), DY by lia. unfold times; cbn [rsum nth Nat.mul Nat.add]; ring.
        - rewrite (PS k 4%nat Hk ltac:(lia)), DY by lia. unfold times; cbn [rsum nth Nat.mul Nat.add]; ring.
        - rewrite (PS k 5%nat Hk ltac:(lia)), DY by lia. unfold times; cbn [rsum nth Nat.mul Nat.add]; ring. }
      split.
      * intros [|k] i Hk Hi.
        -- pose proof (PC0 i ltac:(lia)) as A. pose proof (PC0 (3 + i)%nat ltac:(lia)) as B. 
           do 3 (destruct i as [|i]; [comp_in A; comp_in B; lra|]). lia.
        -- pose proof (PC k i ltac:(lia) ltac:(lia)) as A. pose proof (PC k (3 + i)%nat ltac:(lia) ltac:(lia)) as B. 
           do 3 (destruct i as [|i]; [comp_in A; comp_in B; lra|]). lia.
      * intros [|k] i Hk Hi; [lia|].
        pose proof (PC k (6 + i)%nat ltac:(lia) ltac:(lia)) as A. pose proof (PC k (9 + i)%nat ltac:(lia) ltac:(lia)) as B. 
        do 3 (destruct i as [|i]; [comp_in A; comp_in B; cbn [Nat.add]; lra|]). lia.
    + intros (A & D & U & X). constructor.
      * destruct A as (A0 & A1 & A2 & A3 & A4 & A5). intros i Hi. do 6 (destruct i as [|i]; [comp; lra|]). lia.
      * intros k i Hk Hi. rewrite DY by exact Hi. destruct (D k Hk) as (D0 & D3 & D4 & D5). clear DY D A U X.
        do 3 (destruct i as [|i]; [rewrite D0 by lia; unfold times; cbn [rsum nth Nat.mul Nat.add]; ring|]).
        destruct i as [|i]; [rewrite D3; unfold times; cbn [rsum nth Nat.mul Nat.add]; ring|].
        destruct i as [|i]; [rewrite D4; unfold times; cbn [rsum nth Nat.mul Nat.add]; ring|].
        destruct i as [|i]; [rewrite D5; unfold times; cbn [rsum nth Nat.mul Nat.add]; ring|]. lia.
      * intros i Hi. pose proof (U 0%nat 0%nat ltac:(lia) ltac:(lia)). pose proof (U 0%nat 1%nat ltac:(lia) ltac:(lia)).
        pose proof (U 0%nat 2%nat ltac:(lia) ltac:(lia)). clear DY A D U X. do 12 (destruct i as [|i]; [comp; lra|]). lia.
      * intros k i Hk Hi. pose proof (U (S k) 0%nat ltac:(lia) ltac:(lia)). pose proof (U (S k) 1%nat ltac:(lia) ltac:(lia)).
        pose proof (U (S k) 2%nat ltac:(lia) ltac:(lia)). pose proof (X (S k) 0%nat ltac:(lia) ltac:(lia)) as X0.
        pose proof (X (S k) 1%nat ltac:(lia) ltac:(lia)) as X1. pose proof (X (S k) 2%nat ltac:(lia) ltac:(lia)) as X2.
        cbn [Nat.add] in X0, X1, X2. clear DY A D U X.
        do 12 (destruct i as [|i]; [comp; lra|]). lia.
  - rewrite C. apply rsum_ext. intros k _. cbn [sizes_of stage_of]. comp. field.
Qed.

(* A modal realization of the transfer function of a reactor, sampled: the next state from state and
   input, and the outputs. *)
Definition reactor_next (x u : nat -> R) : list R :=
  [55531/100000 * x 0%nat + 18899/100000 * u 0%nat;
   81264/100000 * x 1%nat + 22577/100000 * u 0%nat;
   82131/100000 * x 2%nat + 11347/100000 * u 0%nat;
   30408/100000 * x 3%nat + 14614/100000 * u 1%nat;
   71811/100000 * x 4%nat + 21282/100000 * u 1%nat;
   72276/100000 * x 5%nat + 21347/100000 * u 1%nat;
   97319/100000 * x 6%nat - 16471/100000 * x 7%nat + 24707/100000 * u 2%nat;
   12353/100000 * x 6%nat + 98966/100000 * x 7%nat + 15512/1000000 * u 2%nat;
   70834/100000 * x 8%nat + 21145/100000 * u 2%nat;
   69048/100000 * x 9%nat + 41785/100000 * u 2%nat;
   83152/100000 * x 10%nat + 11415/100000 * u 3%nat;
   - (16569/1000000) * x 11%nat - 40608/1000000 * x 12%nat + 14554/100000 * u 4%nat;
   7277/100000 * x 11%nat + 17835/100000 * x 12%nat + 29448/10000 * u 4%nat;
   53526/100000 * x 13%nat + 1859/10000 * u 4%nat;
   - (15422/1000000) * x 14%nat - 93847/1000000 * x 15%nat + 4805/100000 * u 4%nat;
   4805/100000 * x 14%nat + 2924/10000 * x 15%nat + 36229/100000 * u 4%nat;
   - (22577/100000) * x 16%nat - 38505/100000 * x 17%nat + 21563/100000 * u 4%nat;
   43126/100000 * x 16%nat + 2517/10000 * x 17%nat + 41905/100000 * u 4%nat].
Definition reactor_out (x : nat -> R) : list R :=
  [8/10 * x 0%nat + 1 * x 3%nat + 416666666666667/10000000000000000 * x 6%nat + 333333333333333/1000000000000000 * x 7%nat + 259553571428571/10000000000000 * x 11%nat + 180245535714286/100000000000000 * x 12%nat;
   - (340248962655602/1000000000000000) * x 1%nat + 874172185430464/1000000000000000 * x 4%nat - 413793103448276/1000000000000000 * x 8%nat - 930000000000000/1000000000000000 * x 13%nat;
   47244/100000 * x 2%nat + 63636/100000 * x 5%nat - 52593/100000 * x 9%nat - 2952/10000 * x 10%nat - 91992/10000 * x 15%nat;
   16757/10000 * x 16%nat + 18214/10000 * x 17%nat].
Ltac table t := let v := eval cbv -[IZR Rplus Rmult Rminus Ropp Rdiv Rinv Rle Rlt sqrt lt] in t in exact v.
Definition reactor_A_table : mat R.
Proof. let t := eval cbn [s_A reactor_stage] in (s_A (reactor_stage Rops (fun x => x))) in table t. Defined.
Definition reactor_B_table : mat R.
Proof. let t := eval cbn [s_B reactor_stage] in (s_B (reactor_stage Rops (fun x => x))) in table t. Defined.
Lemma reactor_A_eq sin : s_A (reactor_stage Rops sin) = reactor_A_table.
Proof. unfold reactor_stage; cbn [s_A]. comp. reflexivity. Qed.
Lemma reactor_B_eq sin : s_B (reactor_stage Rops sin) = reactor_B_table.
Proof. unfold reactor_stage; cbn [s_B]. comp. reflexivity. Qed.
Lemma reactor_dynamics sin x u i : (i < 18)%nat ->
  times 18 (rm (s_A (reactor_stage Rops sin))) x i + times 5 (rm (s_B (reactor_stage Rops sin))) u i +
  rg (s_c (reactor_stage Rops sin)) i = nth i (reactor_next x u) 0.
Proof.
  intro Hi. rewrite reactor_A_eq, reactor_B_eq. unfold reactor_stage; cbn [s_c].
  do 18 (destruct i as [|i]; [comp; lra|]). lia.
Qed.
Lemma reactor_output x i : (i < 4)%nat -> times 18 (rm (reactor_C Rops)) x i = nth i (reactor_out x) 0.
Proof. intro Hi. do 4 (destruct i as [|i]; [comp; lra|]). lia. Qed.
(* the inputs stay within 5 percent, the outputs and the inputs are kept small *)
Theorem C59_copolymerization : forall sin g N g' p x u, (1 <= N)%Z -> horizon_fits reactor N ->
  CopolymerizationReactor Rops sin g N = (g', Ok tt) -> GetFBstabInput g' = Ok p ->
  (trajectory (ocp_of (ref_of_own p)) x u <->
     (forall i, (i < 18)%nat -> x 0%nat i = 2 / 10 * sin (INR (i + 1))) /\
     (forall k i, (k < Z.to_nat N)%nat -> (i < 18)%nat -> x (S k) i = nth i (reactor_next (x k) (u k)) 0) /\
     (forall k i, (k <= Z.to_nat N)%nat -> (i < 5)%nat -> - (5 / 100) <= u k i <= 5 / 100)) /\
  total_cost (ocp_of (ref_of_own p)) x u =
    rsum (Z.to_nat N + 1) (fun k =>
      (rsum 4 (fun i => nth i (reactor_out (x k)) 0 * nth i (reactor_out (x k)) 0) +
       1 / 10 * rsum 5 (fun i => u k i * u k i)) / 2).
Proof.
  intros sin g N g' p x u HN HF M G.
  destruct (example_path sin reactor g N g' p x u HN HF M G) as (T & C). cbn [sizes_of stage_of] in T, C.
  assert (UC : forall (w : nat -> R) i, (i < 5)%nat ->
    times 5 (rm (s_L (reactor_stage Rops sin))) w i + rg (s_d (reactor_stage Rops sin)) i = w i - 5 / 100 /\
    times 5 (rm (s_L (reactor_stage Rops sin))) w (5 + i) + rg (s_d (reactor_stage Rops sin)) (5 + i) = - w i - 5 / 100).
  { intros w i Hi. unfold reactor_stage; cbn [s_L s_d]. do 5 (destruct i as [|i]; [comp; split; lra|]). lia. }
  assert (EZ : forall (w : nat -> R) i, (i < 10)%nat -> times 18 (rm (s_E (reactor_stage Rops sin))) w i = 0).
  { intros w i Hi. unfold times. apply rsum_zero. intros j Hj. unfold reactor_stage; cbn [s_E]. unfold mzero.
    rewrite (mget_mtab Rops) by assumption. apply Rmult_0_l. }
  assert (X0 : forall i, (i < 18)%nat -> rg (s_x0 (reactor_stage Rops sin)) i = 2 / 10 * sin (INR (i + 1))).
  { intros i Hi. unfold reactor_stage; cbn [s_x0]. rewrite vget_tab by exact Hi.
    rewrite INR_IZR_INZ. cbn [o_mul o_dec Rops].
    assert (D0 : Rdec (Z.of_nat (i + 1)) 0 = IZR (Z.of_nat (i + 1))) by (unfold Rdec; cbn [Z.leb Z.compare]; rewrite Z.pow_0_r, Z.mul_1_r; reflexivity).
    rewrite D0. reflexivity. }
  split.
  - rewrite T. clear T C M G. split.
    + intros [P0 PS PC0 PC]. split; [|split].
      * intros i Hi. rewrite P0, X0 by exact Hi. reflexivity.
      * intros k i Hk Hi. rewrite (PS k i Hk Hi). apply reactor_dynamics. exact Hi.
      * intros [|k] i Hk Hi.
        -- destruct (UC (u 0%nat) i Hi) as (A & B). pose proof (PC0 i ltac:(lia)). pose proof (PC0 (5 + i)%nat ltac:(lia)). lra.
        -- destruct (UC (u (S k)) i Hi) as (A & B). pose proof (PC k i ltac:(lia) ltac:(lia)) as P1.
           pose proof (PC k (5 + i)%nat ltac:(lia) ltac:(lia)) as P2. rewrite EZ in P1, P2 by lia. lra.
    + intros (A & D & U).
      assert (UB : forall k i, (k <= Z.to_nat N)%nat -> (i < 10)%nat ->
        times 5 (rm (s_L (reactor_stage Rops sin))) (u k) i + rg (s_d (reactor_stage Rops sin)) i <= 0).
      { intros k i Hk Hi. destruct (Nat.ltb_spec i 5) as [Lt|Ge].
        - destruct (UC (u k) i Lt) as (-> & _). pose proof (U k i Hk Lt). lra.
        - destruct (UC (u k) (i - 5)%nat ltac:(lia)) as (_ & E). replace (5 + (i - 5))%nat with i in E by lia.
          rewrite E. pose proof (U k (i - 5)%nat Hk ltac:(lia)). lra. }
      constructor.
      * intros i Hi. rewrite X0 by exact Hi. auto.
      * intros k i Hk Hi. rewrite (D k i Hk Hi). symmetry. apply reactor_dynamics. exact Hi.
      * intros i Hi. apply UB; [lia|exact Hi].
      * intros k i Hk Hi. rewrite EZ by exact Hi. pose proof (UB (S k) i ltac:(lia) Hi). lra.
  - rewrite C. apply rsum_ext. intros k _. unfold cost_of.
    rewrite (bil_zero 5 18) by (intros i j Hi Hj; unfold reactor_stage; cbn [s_S]; unfold mzero; rewrite (mget_mtab Rops) by assumption; reflexivity).
    change (s_Q (reactor_stage Rops sin)) with (mm Rops (mtrans Rops (reactor_C Rops)) (reactor_C Rops)).
    rewrite (gram_sum (reactor_C Rops) 4 18) by reflexivity.
    rewrite (rsum_ext 4 _ (fun i => nth i (reactor_out (x k)) 0 * nth i (reactor_out (x k)) 0))
      by (intros i Hi; rewrite reactor_output by exact Hi; reflexivity).
    rewrite (rsum_zero 18) by (intros i Hi; unfold reactor_stage; cbn [s_q]; unfold vconst; rewrite vget_tab by exact Hi; apply Rmult_0_l).
    rewrite (rsum_zero 5) by (intros i Hi; unfold reactor_stage; cbn [s_r]; unfold vconst; rewrite vget_tab by exact Hi; apply Rmult_0_l).
    assert (RR : bil 5 5 (rm (s_R (reactor_stage Rops sin))) (u k) (u k) = 1 / 10 * rsum 5 (fun i => u k i * u k i))
      by (unfold reactor_stage; cbn [s_R]; comp; lra).
    rewrite RR. lra.
Qed.
(* What the simulation of an example outputs: both states, load position and torque, all six states, the
   four outputs of the reactor. *)
Definition outputs (e : example) (x : nat -> R) : list R :=
  match e with
  | double_integrator => [x 0%nat; x 1%nat]
  | servo_motor => [x 0%nat; 12802 / 10 * (x 0%nat - x 2%nat / 20)]
  | spacecraft => [x 0%nat; x 1%nat; x 2%nat; x 3%nat; x 4%nat; x 5%nat]
  | reactor => reactor_out x
  end.
Theorem C59_outputs : forall sin e g N g' sm x u, (1 <= N)%Z -> horizon_fits e N ->
  method Rops sin e g N = (g', Ok tt) -> GetSimulationInputs g' = Ok sm ->
  let '(nx, nu, _) := sizes_of e in
  mr (si_C sm) = length (outputs e x) /\ mr (si_D sm) = length (outputs e x) /\
  forall i, (i < length (outputs e x))%nat ->
    times nx (rm (si_C sm)) x i + times nu (rm (si_D sm)) u i = nth i (outputs e x) 0.
Proof.
  intros sin e g N g' sm x u HN HF M SM.
  pose proof (stage_sizes_of Rops sin e) as SS.
  assert (CR : exists C Ts, method Rops sin e = gen_create Rops (stage_of Rops sin e) C Ts /\ mr C = length (outputs e x) /\
     forall i, (i < length (outputs e x))%nat -> times (fst (fst (sizes_of e))) (rm C) x i = nth i (outputs e x) 0).
  { destruct e; do 2 eexists; (split; [reflexivity|split; [reflexivity|intros i Hi; cbn [outputs length reactor_out] in Hi; cbn [sizes_of fst outputs]]]).
    - do 2 (destruct i as [|i]; [comp; lra|]). lia.
    - do 2 (destruct i as [|i]; [comp; lra|]). lia.
    - do 6 (destruct i as [|i]; [comp; lra|]). lia.
    - apply reactor_output. exact Hi. }
  destruct CR as (C & Ts & EC & ML & TC). rewrite EC in M. unfold gen_create in M.
  replace (N <=? 0)%Z with false in M by (symmetry; apply Z.leb_gt; lia).
  destruct (CopyOverHorizon Rops g (stage_of Rops sin e) N) as [gc| |] eqn:E; [|discriminate M|discriminate M].
  injection M as <-. unfold GetSimulationInputs in SM. cbn [ge_ready ge_own ge_Asim ge_Bsim ge_Csim ge_Dsim ge_T] in SM.
  destruct (ge_ready gc); [|discriminate SM]. cbn [throw_unless rbind] in SM. injection SM as <-.
  destruct (sizes_of e) as [[nx nu] nc]. cbn [si_C si_D fst] in *. split; [exact ML|]. split; [exact ML|].
  intros i Hi. rewrite (TC i Hi). rewrite <- (Rplus_0_r (nth i (outputs e x) 0)) at 2. f_equal.
  unfold times. apply rsum_zero. intros j Hj. unfold mzero.
  rewrite (proj1 (proj2 (ss_B _ _ _ _ SS))), ML, (mget_mtab Rops) by assumption. apply Rmult_0_l.
Qed.

(* Hence Solve returns on it, from any guess, with any options whose tolerances are compatible. *)
Theorem C59_solve_returns : forall LA sin e g N g' p s k x el, LALaws LA -> (1 <= N)%Z -> horizon_fits e N ->
  method Rops sin e g N = (g', Ok tt) -> GetFBstabInput g' = Ok p ->
  mpc_reach Rops LA (ge_N g') (ge_nx g') (ge_nu g') (ge_nc g') s ->
  (Z.of_nat (length (v_z x)) = ge_nz g' /\ Z.of_nat (length (v_l x)) = ge_nl g' /\
   Z.of_nat (length (v_v x)) = ge_nv g' /\ Z.of_nat (length (v_y x)) = ge_nv g') ->
  p_inner_tol_min (mps_options s) <= p_inner_tol_max (mps_options s) ->
  p_inner_tol_min (mps_options s) <= p_abs_tol (mps_options s) ->
  0 <= p_rel_tol (mps_options s) ->
  exists out, sr_out (snd (FBstabMpc_SolveOwned Rops LA s p k x el)) = Ok out.
Proof.
  intros LA sin e g N g' p s k x el LL HN HF M G RS X T1 T2 T3. unfold FBstabMpc_SolveOwned.
  destruct (accepted Rops sin e g N g' p x HN HF M G X) as (V & C & F & SZ).
  destruct (C59_convex_feasible sin e g N g' p HN HF M G) as (CV & _).
  destruct (mpc_cases Rops LA R_zero_eq _ _ _ _ s (ref_of_own p) k x el RS V C F) as [[NS _]|[_ (d & Hd & Hv)]]; [contradiction|].
  eapply C36_convex_never_throws; [exact LL|eapply sv_mpc; eassumption|apply C25_convex_iff; exact CV|exact T1|].
  unfold solve_tolerance. match goal with |- _ <= _ + _ * (1 + sqrt ?q) => pose proof (sqrt_pos q) as SQ; set (rt := sqrt q) in * end.
  clearbody rt. nra.
Qed.
(* The whole chain with default options: make the example, make a solver, solve. *)
Theorem C59_default_run : forall LA sin e g N ga, LALaws LA -> (1 <= N)%Z -> horizon_fits e N ->
  exists g' p s, method Rops sin e g N = (g', Ok tt) /\ GetFBstabInput g' = Ok p /\
    FBstabMpc_new Rops ga (ge_N g') (ge_nx g') (ge_nu g') (ge_nc g') = Ok s /\
    forall k x el,
      (Z.of_nat (length (v_z x)) = ge_nz g' /\ Z.of_nat (length (v_l x)) = ge_nl g' /\
       Z.of_nat (length (v_v x)) = ge_nv g' /\ Z.of_nat (length (v_y x)) = ge_nv g') ->
      exists out, sr_out (snd (FBstabMpc_SolveOwned Rops LA s p k x el)) = Ok out.
Proof.
  intros LA sin e g N ga LL HN HF. pose proof (created Rops sin e g N HN HF) as K.
  destruct (sizes_of e) as [[nx nu] nc]. destruct K as (g' & p & E1 & E2 & _).
  destruct (C59_constructible Rops sin e g N g' ga HN HF E1) as (s & E3 & EO).
  exists g', p, s. split; [exact E1|]. split; [exact E2|]. split; [exact E3|]. intros k x el X.
  eapply (C59_solve_returns LA sin e g N g' p s); try eassumption; [eapply mr_new; exact E3| | |]; rewrite EO; cbn; unfold Rdec; cbn; lra.
Qed.
(* every horizon up to five million, say *)
Example horizon_fits_all : forall e N, (1 <= N <= 5000000)%Z -> horizon_fits e N.
Proof.
  intros e N H. destruct e; unfold horizon_fits, in_int, int_max, int_min; cbn [sizes_of Nat.max]; apply andb_true_intro; split; apply Z.leb_le; lia.
Qed.

Print Assumptions C59_bad_horizon.
Print Assumptions C59_no_problem.
Print Assumptions C59_generated.
Print Assumptions C59_accepted.
Print Assumptions C59_constructible.
Print Assumptions C59_convex_feasible.
Print Assumptions C59_double_integrator.
Print Assumptions C59_servo_motor.
Print Assumptions C59_spacecraft.
Print Assumptions C59_copolymerization.
Print Assumptions C59_outputs.
Print Assumptions C59_solve_returns.
Print Assumptions C59_default_run.
