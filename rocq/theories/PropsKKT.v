(* C27-C30: what a zero or small residual means (exact arithmetic). *)
From Verif Require Export RComp.
Local Open Scope R_scope.

(* ---------- scalar complementarity functions ---------- *)
Lemma sqrt_sum_sq_ge a b : Rabs a <= sqrt (a * a + b * b).
Proof.
  rewrite <- sqrt_Rsqr_abs. apply sqrt_le_1_alt. unfold Rsqr. nra.
Qed.
Lemma phi_neg alpha a b : 0 < alpha < 1 -> a <= 0 \/ b <= 0 ->
  phi alpha a b = alpha * (a + b - sqrt (a * a + b * b)).
Proof.
  intros Ha H. unfold phi.
  assert (E : Rmax 0 a * Rmax 0 b = 0).
  { destruct H as [H|H]; [rewrite (Rmax_left 0 a) by exact H|rewrite (Rmax_left 0 b) by exact H]; ring. }
  rewrite Rmult_assoc, E. ring.
Qed.

Theorem C27_pfb_zero_iff : forall alpha a b, 0 < alpha < 1 ->
  (pfb Rops a b alpha = 0 <-> 0 <= a /\ 0 <= b /\ a * b = 0).
Proof.
  intros alpha a b Ha. rewrite pfb_R.
  set (s := sqrt (a * a + b * b)).
  assert (S0 : 0 <= s) by apply sqrt_pos.
  assert (S1 : s * s = a * a + b * b) by (apply sqrt_sqrt; nra).
  split.
  - intro E. destruct (Rlt_le_dec 0 a) as [Pa|Na]; [destruct (Rlt_le_dec 0 b) as [Pb|Nb]|].
    + exfalso. revert E. unfold phi. fold s. rewrite (Rmax_right 0 a), (Rmax_right 0 b) by lra.
      assert (s < a + b) by (apply Rsqr_incrst_0; unfold Rsqr; nra).
      assert (0 < alpha * (a + b - s)) by nra. assert (0 < (1 - alpha) * a * b) by (apply Rmult_lt_0_compat; nra). lra.
    + rewrite phi_neg in E by auto. fold s in E.
      assert (a + b = s) by (destruct (Rmult_integral _ _ E); lra).
      assert (a * b = 0) by nra. assert (0 <= b) by nra. repeat split; lra.
    + rewrite phi_neg in E by auto. fold s in E.
      assert (a + b = s) by (destruct (Rmult_integral _ _ E); lra).
      assert (a * b = 0) by nra. repeat split; nra.
  - intros (Pa & Pb & AB). unfold phi. fold s.
    assert (s = a + b). { apply Rsqr_inj; try lra. unfold Rsqr. nra. }
    rewrite (Rmax_right 0 a), (Rmax_right 0 b) by lra.
    replace ((1 - alpha) * a * b) with ((1 - alpha) * (a * b)) by ring. rewrite AB, H. ring.
Qed.

Lemma pnat_zero_iff alpha a b : 0 < alpha < 1 -> (pnat alpha a b = 0 <-> 0 <= a /\ 0 <= b /\ a * b = 0).
Proof.
  intros Ha. unfold pnat. split.
  - intro E. destruct (Rlt_le_dec 0 a) as [Pa|Na]; [destruct (Rlt_le_dec 0 b) as [Pb|Nb]|].
    + exfalso. rewrite (Rmax_right 0 a), (Rmax_right 0 b) in E by lra.
      assert (0 < Rmin a b) by (apply Rmin_pos; assumption).
      assert (0 < alpha * Rmin a b) by nra. assert (0 < (1 - alpha) * a * b) by (apply Rmult_lt_0_compat; nra). lra.
    + rewrite (Rmax_left 0 b) in E by lra. rewrite (Rmin_right a b) in E by lra.
      assert (E' : alpha * b = 0) by lra. destruct (Rmult_integral _ _ E'); [lra|]. subst b. repeat split; lra.
    + rewrite (Rmax_left 0 a) in E by lra. assert (E' : alpha * Rmin a b = 0) by lra.
      assert (Rmin a b = 0) by (destruct (Rmult_integral _ _ E'); lra). unfold Rmin in *. destruct (Rle_dec a b); nra.
  - intros (Pa & Pb & AB). rewrite (Rmax_right 0 a), (Rmax_right 0 b) by lra.
    replace ((1 - alpha) * a * b) with ((1 - alpha) * (a * b)) by ring. rewrite AB.
    unfold Rmin. destruct (Rle_dec a b); [assert (a = 0) by nra; subst; ring|assert (b = 0) by nra; subst; ring].
Qed.
Lemma min_zero_iff a b : (Rmin a b = 0 <-> 0 <= a /\ 0 <= b /\ a * b = 0).
Proof. unfold Rmin. destruct (Rle_dec a b); split; intros; nra. Qed.

Section KKTProps.
  Context {D : Type} (DI : DataI R D) (d : D) (P : QP).
  Hypothesis EX : Explicit DI d P.
  Notation nz := (n_z P). Notation nl := (n_l P). Notation nv := (n_v P).
  Notation vok := (var_ok nz nl nv).
  Notation zz x := (rg (v_z x)). Notation ll x := (rg (v_l x)). Notation vv x := (rg (v_v x)).

  (* y holds the constraint margin b - Az *)
  Definition y_is_margin (x : var R) : Prop := forall k, (k < nv)%nat -> rg (v_y x) k = margin P (zz x) k.

  Lemma sumsq_zero rz rl rv : sqrt (sumsq P rz rl rv) = 0 <->
    (forall i, (i < nz)%nat -> rz i = 0) /\ (forall i, (i < nl)%nat -> rl i = 0) /\
    (forall i, (i < nv)%nat -> rv i = 0).
  Proof.
    split.
    - intro E. apply sqrt_eq_0 in E; [|apply sumsq_nonneg]. unfold sumsq in E.
      assert (A : 0 <= rsum nz (fun i => rz i * rz i)) by (apply rsum_nonneg; intros; apply Rle_0_sqr).
      assert (B : 0 <= rsum nl (fun i => rl i * rl i)) by (apply rsum_nonneg; intros; apply Rle_0_sqr).
      assert (C : 0 <= rsum nv (fun i => rv i * rv i)) by (apply rsum_nonneg; intros; apply Rle_0_sqr).
      repeat split; intros i Hi; eapply rsum_sq_zero; try eassumption; lra.
    - intros (A & B & C). unfold sumsq.
      rewrite !rsum_zero; [rewrite !Rplus_0_r; apply sqrt_0|..]; intros i Hi; rewrite ?A, ?B, ?C by exact Hi; ring.
  Qed.
  (* each entry is bounded by the norm *)
  Lemma sumsq_entry rz rl rv eps : sqrt (sumsq P rz rl rv) <= eps ->
    (forall i, (i < nz)%nat -> Rabs (rz i) <= eps) /\ (forall i, (i < nl)%nat -> Rabs (rl i) <= eps) /\
    (forall i, (i < nv)%nat -> Rabs (rv i) <= eps).
  Proof.
    intro L.
    assert (A : 0 <= rsum nz (fun i => rz i * rz i)) by (apply rsum_nonneg; intros; apply Rle_0_sqr).
    assert (B : 0 <= rsum nl (fun i => rl i * rl i)) by (apply rsum_nonneg; intros; apply Rle_0_sqr).
    assert (C : 0 <= rsum nv (fun i => rv i * rv i)) by (apply rsum_nonneg; intros; apply Rle_0_sqr).
    assert (G : forall t, t * t <= sumsq P rz rl rv -> Rabs t <= eps).
    { intros t Ht. eapply Rle_trans; [|exact L]. rewrite <- sqrt_Rsqr_abs. apply sqrt_le_1_alt. exact Ht. }
    unfold sumsq in G.
    repeat split; intros i Hi; apply G.
    - assert (K := rsum_term_le nz (fun i => rz i * rz i) i Hi (fun j _ => Rle_0_sqr _)). cbn in K. lra.
    - assert (K := rsum_term_le nl (fun i => rl i * rl i) i Hi (fun j _ => Rle_0_sqr _)). cbn in K. lra.
    - assert (K := rsum_term_le nv (fun i => rv i * rv i) i Hi (fun j _ => Rle_0_sqr _)). cbn in K. lra.
  Qed.

  (* ---------------------------------------------------------------- C27 *)
  Theorem C27_zero_residual_iff_kkt : forall alpha x, 0 < alpha < 1 -> vok x -> y_is_margin x ->
    (kkt_residual Rops DI d nz nl nv alpha x = Ok 0 <-> KKT P (zz x) (ll x) (vv x)).
  Proof.
    intros alpha x Ha V Y. rewrite (kkt_residual_R DI d P EX alpha x V).
    transitivity (sqrt (sumsq P (res_z P x) (res_l P x) (pnat_v alpha x)) = 0).
    { split; [intro E; injection E; auto|intros ->; reflexivity]. }
    rewrite sumsq_zero. unfold KKT, feasible, res_z, res_l, pnat_v. split.
    - intros (A & B & C).
      assert (C' : forall k, (k < nv)%nat -> 0 <= margin P (zz x) k /\ 0 <= vv x k /\ margin P (zz x) k * vv x k = 0).
      { intros k Hk. specialize (C k Hk). rewrite Y in C by exact Hk. apply pnat_zero_iff in C; auto. }
      split; [exact A|]. split; [split|].
      + intros k Hk. specialize (B k Hk). lra.
      + intros k Hk. destruct (C' k Hk) as (Q & _). unfold margin in Q. lra.
      + intros k Hk. destruct (C' k Hk) as (Q1 & Q2 & Q3). split; [exact Q2|lra].
    - intros (A & (B & B') & C). split; [exact A|]. split; [intros k Hk; rewrite (B k Hk); ring|].
      intros k Hk. rewrite (Y k Hk). apply pnat_zero_iff; [exact Ha|].
      destruct (C k Hk) as [C1 C2]. specialize (B' k Hk). unfold margin in *. repeat split; [lra|exact C1|lra].
  Qed.

  (* the same for the natural residual *)
  Theorem C27_zero_natural_residual_iff_kkt : forall alpha x, vok x -> y_is_margin x ->
    exists r, fr_natural Rops DI (at_point d nz nl nv x) (blank_residual Rops d nz nl nv alpha) = Ok r /\
    (rsd_norm Rops (fr_r r) = 0 <-> KKT P (zz x) (ll x) (vv x)).
  Proof.
    intros alpha x V Y.
    destruct (natural_R DI d P EX alpha x V) as (r & E & _ & _ & _ & _ & _ & _ & _ & _ & N).
    exists r. split; [exact E|]. rewrite N, sumsq_zero. unfold KKT, feasible, res_z, res_l, nat_v. split.
    - intros (A & B & C).
      assert (C' : forall k, (k < nv)%nat -> 0 <= margin P (zz x) k /\ 0 <= vv x k /\ margin P (zz x) k * vv x k = 0).
      { intros k Hk. specialize (C k Hk). rewrite Y in C by exact Hk. apply min_zero_iff in C; auto. }
      split; [exact A|]. split; [split|].
      + intros k Hk. specialize (B k Hk). lra.
      + intros k Hk. destruct (C' k Hk) as (Q & _). unfold margin in Q. lra.
      + intros k Hk. destruct (C' k Hk) as (Q1 & Q2 & Q3). split; [exact Q2|lra].
    - intros (A & (B & B') & C). split; [exact A|]. split; [intros k Hk; rewrite (B k Hk); ring|].
      intros k Hk. rewrite (Y k Hk). apply min_zero_iff.
      destruct (C k Hk) as [C1 C2]. specialize (B' k Hk). unfold margin in *. repeat split; [lra|exact C1|lra].
  Qed.

  (* ---------------------------------------------------------------- C28 *)
  (* objective along a direction *)
  Lemma objective_gap z w : convex P ->
    objective P w - objective P z =
    rsum nz (fun i => (times nz (cH P) z i + cf P i) * (w i - z i)) +
    1 / 2 * quad P (fun i => w i - z i).
  Proof.
    intros [Hs _]. unfold objective.
    assert (Q : quad P w = quad P z + 2 * rsum nz (fun i => (w i - z i) * times nz (cH P) z i) +
                quad P (fun i => w i - z i)).
    { assert (E := quad_expand nz (cH P) z (fun i => w i - z i) 1 Hs). unfold quad, times.
      replace (rsum nz (fun i => rsum nz (fun j => w i * cH P i j * w j))) with
        (rsum nz (fun i => rsum nz (fun j => (z i + 1 * (w i - z i)) * cH P i j * (z j + 1 * (w j - z j))))).
      2:{ apply rsum_ext; intros; apply rsum_ext; intros. f_equal; [f_equal|]; ring. }
      rewrite E. ring. }
    rewrite Q.
    rewrite (rsum_ext nz (fun i => (times nz (cH P) z i + cf P i) * (w i - z i))
               (fun i => (w i - z i) * times nz (cH P) z i + (cf P i * w i - cf P i * z i))) by (intros; ring).
    rewrite rsum_add, rsum_sub. lra.
  Qed.

  (* sum_i (M'y)_i u_i = sum_k y_k (M u)_k *)
  Lemma adjoint m (M : nat -> nat -> R) y u :
    rsum nz (fun i => ttimes m M y i * u i) = rsum m (fun k => y k * times nz M u k).
  Proof.
    unfold ttimes, times.
    rewrite (rsum_ext nz _ (fun i => rsum m (fun k => y k * (M k i * u i)))).
    2:{ intros i Hi. rewrite <- rsum_scal_r. apply rsum_ext. intros; ring. }
    rewrite rsum_swap. apply rsum_ext. intros k Hk. rewrite rsum_scal. reflexivity.
  Qed.
  Lemma times_sub m M u w i : times m M (fun j => u j - w j) i = times m M u i - times m M w i.
  Proof. unfold times. rewrite <- rsum_sub. apply rsum_ext. intros; ring. Qed.

  (* g'(w-z) in terms of the Lagrangian gradient *)
  Lemma gap_lagr z l v w :
    rsum nz (fun i => (times nz (cH P) z i + cf P i) * (w i - z i)) =
    rsum nz (fun i => lagr P z l v i * (w i - z i)) -
    rsum nl (fun k => l k * (times nz (cG P) w k - times nz (cG P) z k)) -
    rsum nv (fun k => v k * (times nz (cA P) w k - times nz (cA P) z k)).
  Proof.
    rewrite (rsum_ext nl _ (fun k => l k * times nz (cG P) (fun j => w j - z j) k)).
    2:{ intros. rewrite times_sub. reflexivity. }
    rewrite (rsum_ext nv _ (fun k => v k * times nz (cA P) (fun j => w j - z j) k)).
    2:{ intros. rewrite times_sub. reflexivity. }
    rewrite <- !adjoint, <- !rsum_sub. apply rsum_ext. intros i Hi. unfold lagr. ring.
  Qed.

  Theorem C28_kkt_minimiser : forall z l v, convex P -> KKT P z l v -> minimiser P z.
  Proof.
    intros z l v CV (A & F & C). split; [exact F|]. intros w [W1 W2]. destruct F as [F1 F2].
    assert (E := objective_gap z w CV). rewrite (gap_lagr z l v) in E.
    rewrite (rsum_zero nz (fun i => lagr P z l v i * (w i - z i))) in E
      by (intros i Hi; rewrite (A i Hi); ring).
    rewrite (rsum_zero nl) in E by (intros k Hk; rewrite (F1 k Hk), (W1 k Hk); ring).
    assert (N : rsum nv (fun k => v k * (times nz (cA P) w k - times nz (cA P) z k)) <= 0).
    { rewrite <- (rsum_zero nv (fun _ => 0)) by reflexivity. apply rsum_le. intros k Hk.
      destruct (C k Hk) as [C1 C2]. specialize (W2 k Hk). unfold margin in C2. nra. }
    destruct CV as [_ CV]. specialize (CV (fun i => w i - z i)). lra.
  Qed.

  Theorem C28_zero_residual_optimal : forall alpha x, 0 < alpha < 1 -> vok x -> y_is_margin x ->
    convex P -> kkt_residual Rops DI d nz nl nv alpha x = Ok 0 -> minimiser P (zz x).
  Proof.
    intros alpha x Ha V Y CV E. apply (C27_zero_residual_iff_kkt alpha x Ha V Y) in E.
    eapply C28_kkt_minimiser; eassumption.
  Qed.

  (* ---------------------------------------------------------------- C29 *)
  Lemma pnat_bounds alpha a b eps : 0 < alpha < 1 -> Rabs (pnat alpha a b) <= eps ->
    - (eps / alpha) <= a /\ - (eps / alpha) <= b /\
    (0 < a -> 0 < b -> Rmin a b <= eps / alpha /\ a * b <= eps / (1 - alpha)).
  Proof.
    intros Ha H. unfold pnat in H.
    assert (E1 : eps / alpha * alpha = eps) by (field; lra).
    assert (E2 : eps / (1 - alpha) * (1 - alpha) = eps) by (field; lra).
    set (e1 := eps / alpha) in *. set (e2 := eps / (1 - alpha)) in *.
    assert (H' := Rle_abs (alpha * Rmin a b + (1 - alpha) * Rmax 0 a * Rmax 0 b)).
    assert (H'' := Rle_abs (- (alpha * Rmin a b + (1 - alpha) * Rmax 0 a * Rmax 0 b))). rewrite Rabs_Ropp in H''.
    assert (0 <= e1) by nra.
    destruct (Rlt_le_dec 0 a) as [Pa|Na]; [destruct (Rlt_le_dec 0 b) as [Pb|Nb]|].
    - rewrite (Rmax_right 0 a), (Rmax_right 0 b) in * by lra.
      assert (0 < Rmin a b) by (apply Rmin_pos; assumption).
      assert (0 < (1 - alpha) * a * b) by (apply Rmult_lt_0_compat; nra).
      assert (0 < alpha * Rmin a b) by nra.
      split; [lra|]. split; [lra|]. intros _ _. split; [nra|].
      assert ((1 - alpha) * (a * b) <= eps) by lra. nra.
    - rewrite (Rmax_left 0 b) in * by lra. assert (M : Rmin a b = b) by (apply Rmin_right; lra). rewrite M in *.
      split; [lra|]. split; [nra|]. intros; lra.
    - rewrite (Rmax_left 0 a) in * by lra. rewrite !Rmult_0_r, Rmult_0_l, Rplus_0_r in *.
      assert (M1 := Rmin_l a b). assert (M2 := Rmin_r a b).
      assert (- e1 <= Rmin a b) by nra. split; [lra|]. split; [lra|]. intros; lra.
  Qed.

  (* residual <= eps: approximate KKT conditions with explicit constants *)
  Theorem C29_approximate_kkt : forall alpha x eps rho, 0 < alpha < 1 -> vok x -> y_is_margin x ->
    kkt_residual Rops DI d nz nl nv alpha x = Ok rho -> rho <= eps ->
    sqrt (rsum nz (fun i => lagr P (zz x) (ll x) (vv x) i * lagr P (zz x) (ll x) (vv x) i)) <= eps /\
    sqrt (rsum nl (fun k => (times nz (cG P) (zz x) k - ch P k) * (times nz (cG P) (zz x) k - ch P k))) <= eps /\
    (forall k, (k < nv)%nat ->
       times nz (cA P) (zz x) k <= cb P k + eps / alpha /\
       - (eps / alpha) <= vv x k /\
       (0 < margin P (zz x) k -> 0 < vv x k ->
        Rmin (margin P (zz x) k) (vv x k) <= eps / alpha /\
        margin P (zz x) k * vv x k <= eps / (1 - alpha))).
  Proof.
    intros alpha x eps rho Ha V Y E L. rewrite (kkt_residual_R DI d P EX alpha x V) in E. injection E as <-.
    assert (A : 0 <= rsum nz (fun i => res_z P x i * res_z P x i)) by (apply rsum_nonneg; intros; apply Rle_0_sqr).
    assert (B : 0 <= rsum nl (fun i => res_l P x i * res_l P x i)) by (apply rsum_nonneg; intros; apply Rle_0_sqr).
    assert (C : 0 <= rsum nv (fun i => pnat_v alpha x i * pnat_v alpha x i)) by (apply rsum_nonneg; intros; apply Rle_0_sqr).
    split; [|split].
    - eapply Rle_trans; [|exact L]. apply sqrt_le_1_alt. unfold sumsq, res_z in *. lra.
    - eapply Rle_trans; [|exact L]. apply sqrt_le_1_alt. unfold sumsq.
      rewrite (rsum_ext nl _ (fun i => res_l P x i * res_l P x i)); [lra|]. intros i Hi. unfold res_l. ring.
    - intros k Hk. destruct (sumsq_entry _ _ _ _ L) as (_ & _ & Q). specialize (Q k Hk).
      unfold pnat_v in Q. rewrite (Y k Hk) in Q. destruct (pnat_bounds _ _ _ _ Ha Q) as (Q1 & Q2 & Q3).
      split; [unfold margin in *; lra|]. split; [exact Q2|exact Q3].
  Qed.

  (* and the objective is within an explicit multiple of eps of every feasible value *)
  Theorem C29_objective_gap : forall alpha x eps rho w, 0 < alpha < 1 -> vok x -> y_is_margin x ->
    convex P -> kkt_residual Rops DI d nz nl nv alpha x = Ok rho -> rho <= eps -> feasible P w ->
    objective P (zz x) <= objective P w +
      eps * rsum nz (fun i => Rabs (w i - zz x i)) +
      eps * rsum nl (fun k => Rabs (ll x k)) +
      eps / alpha * rsum nv (fun k => margin P w k) +
      INR nv * (eps / (1 - alpha) + eps / alpha * (eps / alpha)).
  Proof.
    intros alpha x eps rho w Ha V Y CV E L [W1 W2].
    rewrite (kkt_residual_R DI d P EX alpha x V) in E. injection E as <-.
    destruct (sumsq_entry _ _ _ _ L) as (Q1 & Q2 & Q3).
    assert (E0 : 0 <= eps) by (eapply Rle_trans; [apply sqrt_pos|exact L]).
    assert (E := objective_gap (zz x) w CV). rewrite (gap_lagr (zz x) (ll x) (vv x)) in E.
    assert (K1 := dot_inf_one nz (res_z P x) (fun i => w i - zz x i) eps Q1). unfold res_z in K1.
    assert (K1' := Rle_abs (- rsum nz (fun i => lagr P (zz x) (ll x) (vv x) i * (w i - zz x i)))).
    rewrite Rabs_Ropp in K1'.
    assert (K2 := dot_inf_one nl (res_l P x) (ll x) eps Q2).
    assert (K2' := Rle_abs (rsum nl (fun k => res_l P x k * ll x k))).
    assert (K2'' : rsum nl (fun k => ll x k * (times nz (cG P) w k - times nz (cG P) (zz x) k)) =
                   rsum nl (fun k => res_l P x k * ll x k)).
    { apply rsum_ext. intros k Hk. rewrite (W1 k Hk). unfold res_l. ring. }
    rewrite K2'' in E.
    assert (K3 : rsum nv (fun k => vv x k * (times nz (cA P) w k - times nz (cA P) (zz x) k)) <=
                 eps / alpha * rsum nv (fun k => margin P w k) +
                 INR nv * (eps / (1 - alpha) + eps / alpha * (eps / alpha))).
    { rewrite <- rsum_const, <- rsum_scal, <- rsum_add. apply rsum_le. intros k Hk.
      specialize (W2 k Hk). specialize (Q3 k Hk). unfold pnat_v in Q3. rewrite (Y k Hk) in Q3.
      destruct (pnat_bounds _ _ _ _ Ha Q3) as (B1 & B2 & B3).
      assert (EA : 0 <= eps / alpha) by (apply Rmult_le_pos; [exact E0|left; apply Rinv_0_lt_compat; lra]).
      assert (EB : 0 <= eps / (1 - alpha)) by (apply Rmult_le_pos; [exact E0|left; apply Rinv_0_lt_compat; lra]).
      assert (MW : 0 <= margin P w k) by (unfold margin; lra).
      replace (vv x k * (times nz (cA P) w k - times nz (cA P) (zz x) k)) with
        (vv x k * margin P (zz x) k - vv x k * margin P w k) by (unfold margin; ring).
      set (e1 := eps / alpha) in *. set (e2 := eps / (1 - alpha)) in *.
      set (y := margin P (zz x) k) in *. set (mw := margin P w k) in *. set (v := vv x k) in *.
      assert (- v * mw <= e1 * mw) by nra.
      assert (v * y <= e2 + e1 * e1).
      { destruct (Rlt_le_dec 0 y) as [Py|Ny]; destruct (Rlt_le_dec 0 v) as [Pv|Nv].
        - destruct (B3 Py Pv) as [_ B4]. nra.
        - nra.
        - nra.
        - assert (0 <= - y <= e1) by lra. assert (0 <= - v <= e1) by lra. nra. }
      lra. }
    destruct CV as [_ CV]. specialize (CV (fun i => w i - zz x i)). lra.
  Qed.

  (* ---------------------------------------------------------------- C30 *)
  Theorem C30_zero_sub_residual_iff_proximal : forall alpha sigma x xb, 0 < alpha < 1 ->
    vok x -> vok xb -> y_is_margin x ->
    (sub_residual Rops DI d nz nl nv alpha sigma x xb = Ok 0 <->
     proximal P sigma (zz xb) (ll xb) (vv xb) (zz x) (ll x) (vv x)).
  Proof.
    intros alpha sigma x xb Ha V VB Y. rewrite (sub_residual_R DI d P EX alpha sigma x xb V VB).
    transitivity (sqrt (sumsq P (sub_z P sigma x xb) (sub_l P sigma x xb) (sub_v alpha sigma x xb)) = 0).
    { split; [intro E; injection E; auto|intros ->; reflexivity]. }
    rewrite sumsq_zero. unfold proximal, sub_z, sub_l, sub_v, res_z, res_l. split.
    - intros (A & B & C). split; [exact A|]. split; [exact B|].
      intros k Hk. cbv zeta. specialize (C k Hk). rewrite (Y k Hk), <- pfb_R in C. apply C27_pfb_zero_iff in C; assumption.
    - intros (A & B & C). split; [exact A|]. split; [exact B|].
      intros k Hk. rewrite (Y k Hk), <- pfb_R. apply C27_pfb_zero_iff; [exact Ha|apply C; exact Hk].
  Qed.

  (* at most one proximal point *)
  Lemma lagr_diff z l v z' l' v' i :
    lagr P z l v i - lagr P z' l' v' i =
    times nz (cH P) (fun j => z j - z' j) i + ttimes nl (cG P) (fun k => l k - l' k) i +
    ttimes nv (cA P) (fun k => v k - v' k) i.
  Proof.
    unfold lagr. rewrite times_sub.
    assert (S : forall m M u w, ttimes m M (fun k => u k - w k) i = ttimes m M u i - ttimes m M w i).
    { intros m M u w. unfold ttimes. rewrite <- rsum_sub. apply rsum_ext. intros; ring. }
    rewrite !S. ring.
  Qed.
  Theorem C30_proximal_unique : forall sigma zb lb vb z l v z' l' v', convex P -> 0 < sigma ->
    proximal P sigma zb lb vb z l v -> proximal P sigma zb lb vb z' l' v' ->
    (forall i, (i < nz)%nat -> z i = z' i) /\ (forall k, (k < nl)%nat -> l k = l' k) /\
    (forall k, (k < nv)%nat -> v k = v' k).
  Proof.
    intros sigma zb lb vb z l v z' l' v' [Hs CV] Sg (A & B & C) (A' & B' & C').
    set (dz := fun i => z i - z' i). set (dl := fun k => l k - l' k). set (dv := fun k => v k - v' k).
    (* test the stationarity difference with dz *)
    assert (E1 : rsum nz (fun i => (lagr P z l v i - lagr P z' l' v' i) * dz i) =
                 - sigma * rsum nz (fun i => dz i * dz i)).
    { rewrite <- rsum_scal. apply rsum_ext. intros i Hi. specialize (A i Hi). specialize (A' i Hi). unfold dz.
      replace (lagr P z l v i) with (- (sigma * (z i - zb i))) by lra.
      replace (lagr P z' l' v' i) with (- (sigma * (z' i - zb i))) by lra. ring. }
    assert (E2 : rsum nz (fun i => (lagr P z l v i - lagr P z' l' v' i) * dz i) =
      quad P dz + rsum nl (fun k => dl k * times nz (cG P) dz k) + rsum nv (fun k => dv k * times nz (cA P) dz k)).
    { rewrite <- !adjoint. unfold quad. rewrite <- !rsum_add. apply rsum_ext. intros i Hi. rewrite lagr_diff.
      fold dz dl dv.
      replace (rsum nz (fun j => dz i * cH P i j * dz j)) with (dz i * times nz (cH P) dz i).
      2:{ unfold times. rewrite <- rsum_scal. apply rsum_ext. intros; ring. }
      ring. }
    assert (E3 : rsum nl (fun k => dl k * times nz (cG P) dz k) = sigma * rsum nl (fun k => dl k * dl k)).
    { rewrite <- rsum_scal. apply rsum_ext. intros k Hk. unfold dz at 1. rewrite times_sub. specialize (B k Hk). specialize (B' k Hk).
      unfold dl. replace (times nz (cG P) z k) with (ch P k + sigma * (l k - lb k)) by lra.
      replace (times nz (cG P) z' k) with (ch P k + sigma * (l' k - lb k)) by lra. ring. }
    assert (E4 : sigma * rsum nv (fun k => dv k * dv k) <= rsum nv (fun k => dv k * times nz (cA P) dz k)).
    { rewrite <- rsum_scal. apply rsum_le. intros k Hk. unfold dz at 1. rewrite times_sub. specialize (C k Hk). specialize (C' k Hk).
      cbv zeta in C, C'. unfold margin in C, C'. unfold dv.
      set (az := times nz (cA P) z k) in *. set (az' := times nz (cA P) z' k) in *.
      destruct C as (C1 & C2 & C3). destruct C' as (D1 & D2 & D3).
      set (s := cb P k - az + sigma * (v k - vb k)) in *. set (s' := cb P k - az' + sigma * (v' k - vb k)) in *.
      replace (az - az') with (s' - s + sigma * (v k - v' k)) by (unfold s, s'; ring).
      assert (0 <= s * v' k) by nra. assert (0 <= s' * v k) by nra. nra. }
    specialize (CV dz).
    assert (N1 : 0 <= rsum nz (fun i => dz i * dz i)) by (apply rsum_nonneg; intros; apply Rle_0_sqr).
    assert (N2 : 0 <= rsum nl (fun i => dl i * dl i)) by (apply rsum_nonneg; intros; apply Rle_0_sqr).
    assert (N3 : 0 <= rsum nv (fun i => dv i * dv i)) by (apply rsum_nonneg; intros; apply Rle_0_sqr).
    rewrite E2, E3 in E1.
    assert (Z1 : rsum nz (fun i => dz i * dz i) = 0) by nra.
    assert (Z2 : rsum nl (fun i => dl i * dl i) = 0) by nra.
    assert (Z3 : rsum nv (fun i => dv i * dv i) = 0) by nra.
    repeat split; intros i Hi.
    - assert (K := rsum_sq_zero _ _ Z1 i Hi). unfold dz in K. lra.
    - assert (K := rsum_sq_zero _ _ Z2 i Hi). unfold dl in K. lra.
    - assert (K := rsum_sq_zero _ _ Z3 i Hi). unfold dv in K. lra.
  Qed.
End KKTProps.
