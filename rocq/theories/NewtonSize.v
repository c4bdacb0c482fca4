(* The length of the Newton direction of a proximal subproblem, and the decrease of the merit function
   along it.  Pure mathematics over the reals. *)
From Verif Require Export FbSmooth.
Local Open Scope R_scope.

(* ---------- specification: the constants ---------- *)
(* the smallest diagonal entry mu + sigma*gamma of the Newton system *)
Definition pivot_floor (alpha sigma : R) : R := Rmin 1 sigma * (alpha / 2).
(* length of the direction (dz, dl) relative to the residual *)
Definition direction_growth (P : QP) (alpha sigma : R) : R := (1 + fro P / pivot_floor alpha sigma) / sigma.
(* length of the change of the pairs (margin + sigma(v - vb), v) relative to the residual *)
Definition pair_growth (P : QP) (alpha sigma : R) : R :=
  let N := direction_growth P alpha sigma in
  fro P * N + (1 + sigma) * (fro P * N / sigma + 1 / pivot_floor alpha sigma).

(* ---------- Euclidean length ---------- *)
Definition len (n : nat) (f : nat -> R) : R := sqrt (rsum n (fun i => f i * f i)).
Lemma len_pos n f : 0 <= len n f. Proof. apply sqrt_pos. Qed.
Lemma len_sq n f : len n f * len n f = rsum n (fun i => f i * f i).
Proof. apply sqrt_sqrt. apply rsum_nonneg. intros; apply Rle_0_sqr. Qed.
Lemma len_cs n f g : Rabs (rsum n (fun i => f i * g i)) <= len n f * len n g.
Proof.
  apply abs_le_sq; [apply Rmult_le_pos; apply len_pos|].
  replace (len n f * len n g * (len n f * len n g)) with ((len n f * len n f) * (len n g * len n g)) by ring.
  rewrite !len_sq. apply cs_sum.
Qed.
Lemma len_ext n f g : (forall i, (i < n)%nat -> f i = g i) -> len n f = len n g.
Proof. intro E. unfold len. f_equal. apply rsum_ext. intros i Hi. rewrite E by exact Hi. reflexivity. Qed.
Lemma len_le_sq n f b : 0 <= b -> rsum n (fun i => f i * f i) <= b * b -> len n f <= b.
Proof. intros Hb H. rewrite <- (Rabs_pos_eq (len n f)) by apply len_pos. apply abs_le_sq; [exact Hb|]. rewrite len_sq. exact H. Qed.
Lemma len_add n f g : len n (fun i => f i + g i) <= len n f + len n g.
Proof.
  apply len_le_sq; [assert (A := len_pos n f); assert (B := len_pos n g); lra|].
  rewrite (rsum_ext n _ (fun i => (f i * f i + 2 * (f i * g i)) + g i * g i)) by (intros; ring).
  rewrite !rsum_add, rsum_scal, <- !len_sq. assert (K := len_cs n f g). assert (K2 := Rle_abs (rsum n (fun i => f i * g i))). lra.
Qed.
Lemma len_dom n f g c : 0 <= c -> (forall i, (i < n)%nat -> Rabs (f i) <= c * Rabs (g i)) -> len n f <= c * len n g.
Proof.
  intros Hc H. apply len_le_sq; [apply Rmult_le_pos; [exact Hc|apply len_pos]|].
  replace (c * len n g * (c * len n g)) with (c * c * (len n g * len n g)) by ring. rewrite len_sq, <- rsum_scal.
  apply rsum_le. intros i Hi. specialize (H i Hi).
  rewrite <- (Rabs_pos_eq (f i * f i)) by apply Rle_0_sqr. rewrite Rabs_mult.
  replace (c * c * (g i * g i)) with ((c * Rabs (g i)) * (c * Rabs (g i))).
  - apply Rmult_le_compat; auto using Rabs_pos.
  - assert (E : Rabs (g i) * Rabs (g i) = g i * g i) by (rewrite <- Rabs_mult; apply Rabs_pos_eq, Rle_0_sqr).
    replace (c * Rabs (g i) * (c * Rabs (g i))) with (c * c * (Rabs (g i) * Rabs (g i))) by ring. rewrite E. reflexivity.
Qed.
Lemma len_times P f : len (n_v P) (times (n_z P) (cA P) f) <= fro P * len (n_z P) f.
Proof.
  apply len_le_sq; [apply Rmult_le_pos; [apply fro_pos|apply len_pos]|].
  replace (fro P * len (n_z P) f * (fro P * len (n_z P) f)) with ((fro P * fro P) * (len (n_z P) f * len (n_z P) f)) by ring.
  rewrite len_sq. unfold fro. rewrite sqrt_sqrt by (apply rsum_nonneg; intros; apply rsum_nonneg; intros; apply Rle_0_sqr).
  rewrite <- rsum_scal_r. apply rsum_le. intros k Hk. unfold times. apply (cs_sum (n_z P) (fun i => cA P k i) f).
Qed.
Lemma len_sum n f : (forall i, (i < n)%nat -> 0 <= f i) -> rsum n f <= sqrt (INR n) * len n f.
Proof.
  intro H. assert (K := len_cs n (fun _ => 1) f).
  assert (E : len n (fun _ => 1) = sqrt (INR n)).
  { unfold len. rewrite rsum_const. f_equal. ring. }
  rewrite E in K. assert (K2 := Rle_abs (rsum n (fun i => 1 * f i))).
  rewrite (rsum_ext n f (fun i => 1 * f i)) by (intros; ring). lra.
Qed.

(* ---------- the weights ---------- *)
Lemma sqrt2_le : 1 / sqrt 2 <= 3 / 4.
Proof.
  assert (0 < sqrt 2) by (apply sqrt_lt_R0; lra). assert (S2 : sqrt 2 * sqrt 2 = 2) by (apply sqrt_sqrt; lra).
  apply Rmult_le_reg_r with (sqrt 2); [assumption|]. replace (1 / sqrt 2 * sqrt 2) with 1 by (field; lra). nra.
Qed.
Lemma weight_sum alpha a b : 0 < alpha < 1 -> alpha / 2 <= fst (gradR alpha a b) + snd (gradR alpha a b).
Proof.
  intros [A0 A1]. unfold PFBGradient. cbn [o_ltb o_sqrt o_add o_mul o_sub o_div o_one o_zero Rops].
  replace (o_two Rops) with 2 by (unfold o_two; cbn; lra).
  set (r := sqrt (a * a + b * b)).
  destruct (Rltb r (zero_tolerance Rops)) eqn:E.
  - cbn [fst snd]. assert (K := sqrt2_le). assert (alpha * (1 / 4) <= alpha * (1 - 1 / sqrt 2)) by (apply Rmult_le_compat_l; lra). lra.
  - apply Rltb_false in E. assert (Z := ztol_pos). assert (Hr : 0 < r) by lra.
    assert (Q := radius_sq a b). fold r in Q.
    assert (S2 : a + b <= 3 / 2 * r).
    { destruct (Rle_dec (a + b) 0) as [L|L]; [lra|].
      apply Rsqr_incr_0_var; [|lra]. unfold Rsqr. assert (0 <= (a - b) * (a - b)) by apply Rle_0_sqr.
      assert (0 <= r * r) by apply Rle_0_sqr. lra. }
    assert (S3 : a / r + b / r <= 3 / 2).
    { apply Rmult_le_reg_r with r; [exact Hr|]. replace ((a / r + b / r) * r) with (a + b) by (field; lra). exact S2. }
    assert (M : alpha * (1 / 2) <= alpha * (2 - (a / r + b / r))) by (apply Rmult_le_compat_l; lra).
    destruct (Rltb 0 a && Rltb 0 b) eqn:CS; cbn [fst snd]; [|lra].
    apply andb_prop in CS. destruct CS as [C1 C2]. apply Rltb_true in C1, C2.
    assert (0 <= (1 - alpha) * b) by (apply Rmult_le_pos; lra). assert (0 <= (1 - alpha) * a) by (apply Rmult_le_pos; lra). lra.
Qed.
Lemma pivot_floor_pos alpha sigma : 0 < alpha < 1 -> 0 < sigma -> 0 < pivot_floor alpha sigma.
Proof. intros Ha Hs. unfold pivot_floor. apply Rmult_lt_0_compat; [unfold Rmin; destruct (Rle_dec 1 sigma); lra|lra]. Qed.
Lemma pivot_ok alpha sigma a b : 0 < alpha < 1 -> 0 < sigma ->
  let g := fst (gradR alpha a b) in let m := snd (gradR alpha a b) + sigma * g in
  0 <= g /\ sigma * g <= m /\ pivot_floor alpha sigma <= m.
Proof.
  intros Ha Hs. cbv zeta. destruct (C33_weight_pair alpha sigma a b Ha Hs) as (G0 & M0 & _).
  assert (K := weight_sum alpha a b Ha). set (g := fst _) in *. set (m := snd _) in *.
  split; [exact G0|]. split; [lra|]. unfold pivot_floor.
  set (k := Rmin 1 sigma). assert (K1 : k <= 1) by apply Rmin_l. assert (K2 : k <= sigma) by apply Rmin_r.
  assert (K0 : 0 <= k) by (unfold k, Rmin; destruct (Rle_dec 1 sigma); lra).
  assert (k * (alpha / 2) <= k * (g + m)) by (apply Rmult_le_compat_l; assumption).
  assert (k * g <= sigma * g) by (apply Rmult_le_compat_r; assumption).
  assert (k * m <= 1 * m) by (apply Rmult_le_compat_r; assumption). lra.
Qed.

(* ---------- the Newton direction ---------- *)
Section Direction.
  Context (P : QP) (sigma m0 : R) (g m dz dl dv rz rl rv : nat -> R) (F : R).
  Notation nz := (n_z P). Notation nl := (n_l P). Notation nv := (n_v P).
  Hypothesis Cv : convex P.
  Hypothesis Hs : 0 < sigma.
  Hypothesis Hm : 0 < m0.
  Hypothesis W : forall k, (k < nv)%nat -> 0 <= g k /\ sigma * g k <= m k /\ m0 <= m k.
  Hypothesis NS : newton_system P sigma g m dz dl dv rz rl rv.
  Hypothesis HF : 0 <= F.
  Hypothesis F1 : rsum nz (fun i => rz i * rz i) + rsum nl (fun i => rl i * rl i) <= F * F.
  Hypothesis F2 : len nv rv <= F.
  Notation Adz := (times nz (cA P) dz).
  Notation Nd := (sqrt (rsum nz (fun i => dz i * dz i) + rsum nl (fun i => dl i * dl i))).
  Lemma Nd_sq : Nd * Nd = rsum nz (fun i => dz i * dz i) + rsum nl (fun i => dl i * dl i).
  Proof.
    apply sqrt_sqrt. assert (0 <= rsum nz (fun i => dz i * dz i)) by (apply rsum_nonneg; intros; apply Rle_0_sqr).
    assert (0 <= rsum nl (fun i => dl i * dl i)) by (apply rsum_nonneg; intros; apply Rle_0_sqr). lra.
  Qed.
  Lemma dz_Nd : len nz dz <= Nd.
  Proof.
    apply len_le_sq; [apply sqrt_pos|]. rewrite Nd_sq.
    assert (0 <= rsum nl (fun i => dl i * dl i)) by (apply rsum_nonneg; intros; apply Rle_0_sqr). lra.
  Qed.
  Lemma dv_is k : (k < nv)%nat -> dv k = g k / m k * Adz k + rv k / m k.
  Proof.
    intro Hk. destruct (W k Hk) as (W1 & W2 & W3). destruct NS as (_ & _ & E3). specialize (E3 k Hk). rewrite <- E3. field. lra.
  Qed.
  Lemma Nd_bound : Nd <= (1 + fro P / m0) / sigma * F.
  Proof.
    destruct Cv as [_ Hp]. destruct NS as (E1 & E2 & _).
    assert (X : quad P dz + sigma * rsum nz (fun i => dz i * dz i) +
                rsum nl (fun k => dl k * times nz (cG P) dz k) + rsum nv (fun k => dv k * Adz k) = rsum nz (fun i => dz i * rz i)).
    { rewrite (rsum_ext nz (fun i => dz i * rz i) (fun i => dz i * (times nz (cH P) dz i + sigma * dz i + ttimes nl (cG P) dl i + ttimes nv (cA P) dv i)))
        by (intros i Hi; rewrite E1 by exact Hi; reflexivity).
      rewrite <- times_dot_quad, <- (ttimes_dot nz nl), <- (ttimes_dot nz nv), <- rsum_scal, <- !rsum_add. apply rsum_ext; intros; ring. }
    assert (X1 : rsum nl (fun k => dl k * times nz (cG P) dz k) = sigma * rsum nl (fun k => dl k * dl k) - rsum nl (fun k => dl k * rl k)).
    { rewrite <- rsum_scal, <- rsum_sub. apply rsum_ext; intros k Hk. specialize (E2 k Hk).
      replace (times nz (cG P) dz k) with (sigma * dl k - rl k) by lra. ring. }
    assert (X2 : rsum nv (fun k => rv k / m k * Adz k) <= rsum nv (fun k => dv k * Adz k)).
    { apply rsum_le. intros k Hk. rewrite (dv_is k Hk). destruct (W k Hk) as (W1 & W2 & W3).
      assert (0 <= g k / m k) by (apply Rmult_le_pos; [exact W1|left; apply Rinv_0_lt_compat; lra]).
      assert (0 <= g k / m k * (Adz k * Adz k)) by (apply Rmult_le_pos; [assumption|apply Rle_0_sqr]). lra. }
    assert (X3 : Rabs (rsum nv (fun k => rv k / m k * Adz k)) <= (1 / m0 * F) * (fro P * Nd)).
    { eapply Rle_trans; [apply (len_cs nv (fun k => rv k / m k) Adz)|]. apply Rmult_le_compat; try apply len_pos.
      - eapply Rle_trans; [apply (len_dom nv _ rv (1 / m0))|].
        + left. apply Rdiv_lt_0_compat; lra.
        + intros k Hk. destruct (W k Hk) as (W1 & W2 & W3). unfold Rdiv. rewrite Rabs_mult, Rmult_1_l, Rmult_comm.
          apply Rmult_le_compat_r; [apply Rabs_pos|]. rewrite Rabs_pos_eq by (left; apply Rinv_0_lt_compat; lra).
          apply Rinv_le_contravar; lra.
        + apply Rmult_le_compat_l; [|exact F2]. left. apply Rdiv_lt_0_compat; lra.
      - eapply Rle_trans; [apply len_times|]. apply Rmult_le_compat_l; [apply fro_pos|apply dz_Nd]. }
    assert (X4 : rsum nz (fun i => dz i * rz i) + rsum nl (fun k => dl k * rl k) <= Nd * F).
    { assert (K := cs_le P (mkPt dz dl (fun _ => 0)) (mkPt rz rl (fun _ => 0))). unfold nrm, ip in K; cbn [pz pl pv] in K.
      assert (Z : rsum nv (fun _ => 0 * 0) = 0) by (apply rsum_zero; intros; ring). rewrite Z, !Rplus_0_r in K.
      eapply Rle_trans; [exact K|]. apply Rmult_le_compat_l; [apply sqrt_pos|].
      rewrite <- (sqrt_square F HF). apply sqrt_le_1_alt. exact F1. }
    specialize (Hp dz). assert (ND := Nd_sq). assert (PN : 0 <= Nd) by apply sqrt_pos.
    set (N := Nd) in *. assert (K := Rle_abs (- rsum nv (fun k => rv k / m k * Adz k))). rewrite Rabs_Ropp in K.
    assert (MAIN : sigma * (N * N) <= N * F + 1 / m0 * F * (fro P * N)) by (rewrite ND; lra).
    destruct (Req_dec N 0) as [Z|Z].
    { rewrite Z. apply Rmult_le_pos; [|exact HF]. left. apply Rdiv_lt_0_compat; [|exact Hs].
      assert (0 <= fro P / m0); [|lra]. apply Rmult_le_pos; [apply fro_pos|left; apply Rinv_0_lt_compat; exact Hm]. }
    assert (PN2 : 0 < N) by lra.
    apply Rmult_le_reg_l with (sigma * N); [apply Rmult_lt_0_compat; assumption|].
    replace (sigma * N * ((1 + fro P / m0) / sigma * F)) with (N * F + 1 / m0 * F * (fro P * N)) by (field; lra). lra.
  Qed.
  Lemma dv_bound : len nv dv <= (fro P * ((1 + fro P / m0) / sigma) / sigma + 1 / m0) * F.
  Proof.
    rewrite (len_ext nv dv (fun k => g k / m k * Adz k + rv k / m k)) by apply dv_is.
    eapply Rle_trans; [apply len_add|]. rewrite Rmult_plus_distr_r. apply Rplus_le_compat.
    - eapply Rle_trans; [apply (len_dom nv _ Adz (1 / sigma))|].
      + left; apply Rdiv_lt_0_compat; lra.
      + intros k Hk. destruct (W k Hk) as (W1 & W2 & W3). rewrite Rabs_mult. apply Rmult_le_compat_r; [apply Rabs_pos|].
        rewrite Rabs_pos_eq by (apply Rmult_le_pos; [exact W1|left; apply Rinv_0_lt_compat; lra]).
        apply Rmult_le_reg_r with (m k); [lra|]. replace (g k / m k * m k) with (g k) by (field; lra).
        apply Rmult_le_reg_l with sigma; [exact Hs|]. replace (sigma * (1 / sigma * m k)) with (m k) by (field; lra). lra.
      + replace (fro P * ((1 + fro P / m0) / sigma) / sigma * F) with (1 / sigma * (fro P * ((1 + fro P / m0) / sigma * F))) by (field; lra).
        apply Rmult_le_compat_l; [left; apply Rdiv_lt_0_compat; lra|].
        eapply Rle_trans; [apply len_times|]. apply Rmult_le_compat_l; [apply fro_pos|].
        eapply Rle_trans; [apply dz_Nd|apply Nd_bound].
    - eapply Rle_trans; [apply (len_dom nv _ rv (1 / m0))|].
      + left; apply Rdiv_lt_0_compat; lra.
      + intros k Hk. destruct (W k Hk) as (W1 & W2 & W3). unfold Rdiv. rewrite Rabs_mult, Rmult_1_l, Rmult_comm.
        apply Rmult_le_compat_r; [apply Rabs_pos|]. rewrite Rabs_pos_eq by (left; apply Rinv_0_lt_compat; lra).
        apply Rinv_le_contravar; lra.
      + apply Rmult_le_compat_l; [left; apply Rdiv_lt_0_compat; lra|exact F2].
  Qed.
  Notation da k := (- Adz k + sigma * dv k).
  Lemma pair_bound : len nv (fun k => sqrt (da k * da k + dv k * dv k)) <=
    (fro P * ((1 + fro P / m0) / sigma) + (1 + sigma) * (fro P * ((1 + fro P / m0) / sigma) / sigma + 1 / m0)) * F.
  Proof.
    assert (E : len nv (fun k => sqrt (da k * da k + dv k * dv k)) <= len nv (fun k => da k) + len nv dv).
    { apply len_le_sq; [assert (A := len_pos nv (fun k => da k)); assert (B := len_pos nv dv); lra|].
      rewrite (rsum_ext nv _ (fun k => da k * da k + dv k * dv k)).
      2:{ intros k Hk. apply sqrt_sqrt. assert (A := Rle_0_sqr (da k)). assert (B := Rle_0_sqr (dv k)). unfold Rsqr in *. lra. }
      rewrite rsum_add, <- (len_sq nv (fun k => da k)), <- (len_sq nv dv).
      assert (A := len_pos nv (fun k => da k)). assert (B := len_pos nv dv).
      assert (0 <= len nv (fun k => da k) * len nv dv) by (apply Rmult_le_pos; assumption). lra. }
    assert (D1 : len nv (fun k => da k) <= fro P * len nz dz + sigma * len nv dv).
    { eapply Rle_trans; [apply (len_add nv (fun k => - Adz k) (fun k => sigma * dv k))|]. apply Rplus_le_compat.
      - eapply Rle_trans; [apply (len_dom nv _ Adz 1)|]; [lra| |].
        + intros k _. rewrite Rabs_Ropp. lra.
        + rewrite Rmult_1_l. apply len_times.
      - apply (len_dom nv _ dv sigma); [lra|]. intros k _. rewrite Rabs_mult, (Rabs_pos_eq sigma) by lra. lra. }
    assert (D2 := dz_Nd). assert (D3 := Nd_bound). assert (D4 := dv_bound).
    set (N := (1 + fro P / m0) / sigma) in *.
    assert (D5 : fro P * len nz dz <= fro P * (N * F)) by (apply Rmult_le_compat_l; [apply fro_pos|lra]).
    assert (D6 : (1 + sigma) * len nv dv <= (1 + sigma) * ((fro P * N / sigma + 1 / m0) * F)) by (apply Rmult_le_compat_l; lra).
    lra.
  Qed.
End Direction.

(* ---------- the merit function along the direction ---------- *)
Section Decrease.
  Context (P : QP) (alpha sigma : R) (xc xb dx : var R).
  Notation nz := (n_z P). Notation nl := (n_l P). Notation nv := (n_v P).
  Hypothesis Ha : 0 < alpha < 1.
  Hypothesis Hs : 0 < sigma.
  Hypothesis Cv : convex P.
  Hypothesis Mc : y_is_margin P xc.
  Hypothesis NS : newton_system P sigma (rg (w_gamma Rops alpha sigma xc xb nv)) (rg (w_mus Rops alpha sigma xc xb nv))
    (rg (v_z dx)) (rg (v_l dx)) (rg (v_v dx))
    (fun i => - sub_z P sigma xc xb i) (fun k => - sub_l P sigma xc xb k) (fun k => - sub_v alpha sigma xc xb k).
  Notation pa k := (rg (v_y xc) k + sigma * (rg (v_v xc) k - rg (v_v xb) k)).
  Notation pbb k := (rg (v_v xc) k).
  Notation da k := (- times nz (cA P) (rg (v_z dx)) k + sigma * rg (v_v dx) k).
  Notation db k := (rg (v_v dx) k).
  Notation m s := (merit_of P alpha sigma (on_line P xc dx s) xb).
  Notation cm := (merit_of P alpha sigma xc xb).
  Variables (B dm F : R).
  Hypothesis HB : 0 <= B.
  Hypothesis BP : forall k, (k < nv)%nat -> pa k <= B /\ pbb k <= B.
  Hypothesis HF : 0 <= F.
  Hypothesis FF : F * F = 2 * cm.
  Notation L := (pair_growth P alpha sigma).
  Hypothesis HD : L * F <= dm.
  Notation e k := (sqrt (da k * da k + db k * db k)).

  Lemma growth_pos : 0 < L.
  Proof.
    unfold pair_growth, direction_growth. cbv zeta. assert (PM := pivot_floor_pos alpha sigma Ha Hs). assert (PF := fro_pos P).
    set (m0 := pivot_floor alpha sigma) in *.
    assert (0 <= fro P / m0) by (apply Rmult_le_pos; [exact PF|left; apply Rinv_0_lt_compat; exact PM]).
    assert (PN : 0 < (1 + fro P / m0) / sigma) by (apply Rdiv_lt_0_compat; lra). set (N := (1 + fro P / m0) / sigma) in *.
    assert (0 <= fro P * N) by (apply Rmult_le_pos; lra).
    assert (0 <= fro P * N / sigma) by (apply Rmult_le_pos; [assumption|left; apply Rinv_0_lt_compat; exact Hs]).
    assert (0 < 1 / m0) by (apply Rdiv_lt_0_compat; lra).
    assert (0 < (1 + sigma) * (fro P * N / sigma + 1 / m0)) by (apply Rmult_lt_0_compat; lra). lra.
  Qed.
  Lemma pairs_small : len nv (fun k => e k) <= L * F.
  Proof.
    unfold pair_growth, direction_growth. cbv zeta.
    apply (pair_bound P sigma (pivot_floor alpha sigma) (rg (w_gamma Rops alpha sigma xc xb nv)) (rg (w_mus Rops alpha sigma xc xb nv))
      (rg (v_z dx)) (rg (v_l dx)) (rg (v_v dx)) (fun i => - sub_z P sigma xc xb i) (fun k => - sub_l P sigma xc xb k)
      (fun k => - sub_v alpha sigma xc xb k) F Cv Hs (pivot_floor_pos alpha sigma Ha Hs)).
    - intros k Hk. unfold w_gamma, w_mus. rewrite !(vget_tab Rops) by exact Hk.
      cbn [o_add o_mul Rops]. apply (pivot_ok alpha sigma _ _ Ha Hs).
    - exact NS.
    - exact HF.
    - rewrite FF. unfold merit_of, sumsq.
      rewrite (rsum_ext nz (fun i => - sub_z P sigma xc xb i * - sub_z P sigma xc xb i) (fun i => sub_z P sigma xc xb i * sub_z P sigma xc xb i)) by (intros; ring).
      rewrite (rsum_ext nl (fun i => - sub_l P sigma xc xb i * - sub_l P sigma xc xb i) (fun i => sub_l P sigma xc xb i * sub_l P sigma xc xb i)) by (intros; ring).
      assert (0 <= rsum nv (fun i => sub_v alpha sigma xc xb i * sub_v alpha sigma xc xb i)) by (apply rsum_nonneg; intros; apply Rle_0_sqr). lra.
    - apply len_le_sq; [exact HF|]. rewrite FF. unfold merit_of, sumsq.
      rewrite (rsum_ext nv (fun i => - sub_v alpha sigma xc xb i * - sub_v alpha sigma xc xb i) (fun i => sub_v alpha sigma xc xb i * sub_v alpha sigma xc xb i)) by (intros; ring).
      assert (0 <= rsum nz (fun i => sub_z P sigma xc xb i * sub_z P sigma xc xb i)) by (apply rsum_nonneg; intros; apply Rle_0_sqr).
      assert (0 <= rsum nl (fun i => sub_l P sigma xc xb i * sub_l P sigma xc xb i)) by (apply rsum_nonneg; intros; apply Rle_0_sqr). lra.
  Qed.
  Lemma one_pair k : (k < nv)%nat -> e k <= L * F.
  Proof.
    intro Hk. eapply Rle_trans; [|apply pairs_small].
    rewrite <- (Rabs_pos_eq (e k)) by apply sqrt_pos. apply abs_le_sq; [apply len_pos|]. rewrite len_sq.
    apply (rsum_term_le nv (fun k => e k * e k) k Hk). intros; apply Rle_0_sqr.
  Qed.
  Lemma scaled_len s u v : 0 <= s -> sqrt (s * u * (s * u) + s * v * (s * v)) = s * sqrt (u * u + v * v).
  Proof.
    intro H. replace (s * u * (s * u) + s * v * (s * v)) with (s * s * (u * u + v * v)) by ring.
    rewrite sqrt_mult; [rewrite sqrt_square by exact H; reflexivity|apply Rle_0_sqr|].
    assert (0 <= u * u) by apply Rle_0_sqr. assert (0 <= v * v) by apply Rle_0_sqr. lra.
  Qed.

  Lemma merit_upper s : 0 <= s <= 1 ->
    m s <= cm - 2 * s * cm + s * s * ((1 + fb_curv B dm * (L * L)) * cm) +
           s * ((3 + B) * zero_tolerance Rops * fb_lip B dm * (sqrt (INR nv) * (L * F))).
  Proof.
    intros [S0 S1]. assert (PL := growth_pos). assert (PLF : 0 <= L * F) by (apply Rmult_le_pos; lra).
    assert (Pd : 0 <= dm) by lra.
    assert (Z := ztol_pos).
    assert (P1 : 0 <= fb_lip B dm) by (unfold fb_lip; lra).
    assert (P2 : 0 <= fb_mix B dm).
    { unfold fb_mix. assert (0 <= B * (1 + B)) by (apply Rmult_le_pos; lra). assert (0 <= (6 + B) * (B + dm)) by (apply Rmult_le_pos; lra). lra. }
    assert (P3 : 0 <= fb_curv B dm).
    { unfold fb_curv. assert (K := Rle_0_sqr (2 * (2 + B) + fb_lip B dm)). unfold Rsqr in K. lra. }
    rewrite (line_merit P alpha sigma xc xb dx Mc NS).
    set (c1 := fb_lip B dm) in *. set (c3 := fb_curv B dm) in *. set (zt := zero_tolerance Rops) in *.
    assert (SV : rsum nv (fun k => phi alpha (pa k + s * da k) (pbb k + s * db k) * phi alpha (pa k + s * da k) (pbb k + s * db k)) <=
      (1 - 2 * s) * rsum nv (fun k => sub_v alpha sigma xc xb k * sub_v alpha sigma xc xb k) +
      c3 * (s * s) * rsum nv (fun k => e k * e k) + 2 * (3 + B) * zt * c1 * s * rsum nv (fun k => e k)).
    { rewrite <- !rsum_scal, <- !rsum_add. apply rsum_le. intros k Hk. destruct (BP k Hk) as [B1 B2].
      assert (EK := one_pair k Hk).
      assert (SB := square_bound alpha B dm (pa k) (pbb k) (s * da k) (s * db k) Ha HB Pd B1 B2).
      rewrite (scaled_len s (da k) (db k) S0) in SB.
      assert (P0 : 0 <= e k) by apply sqrt_pos.
      assert (SE : s * e k <= dm) by (assert (s * e k <= 1 * e k) by (apply Rmult_le_compat_r; lra); lra).
      specialize (SB SE). cbv zeta in SB. fold c1 c3 zt in SB.
      replace (fst (gradR alpha (pa k) (pbb k)) * (s * da k) + snd (gradR alpha (pa k) (pbb k)) * (s * db k)) with
        (s * (fst (gradR alpha (pa k) (pbb k)) * da k + snd (gradR alpha (pa k) (pbb k)) * db k)) in SB by ring.
      rewrite (pair_dir P alpha sigma xc xb dx NS k Hk) in SB. unfold sub_v.
      set (f := phi alpha (pa k) (pbb k)) in *. lra. }
    assert (E2 : rsum nv (fun k => e k * e k) <= L * L * (2 * cm)).
    { rewrite <- FF, <- (len_sq nv (fun k => e k)). assert (K := pairs_small). assert (K0 := len_pos nv (fun k => e k)).
      replace (L * L * (F * F)) with ((L * F) * (L * F)) by ring. apply Rmult_le_compat; assumption. }
    assert (E1 : rsum nv (fun k => e k) <= sqrt (INR nv) * (L * F)).
    { eapply Rle_trans; [apply len_sum; intros; apply sqrt_pos|]. apply Rmult_le_compat_l; [apply sqrt_pos|apply pairs_small]. }
    assert (Q1 : c3 * (s * s) * rsum nv (fun k => e k * e k) <= c3 * (s * s) * (L * L * (2 * cm))).
    { apply Rmult_le_compat_l; [apply Rmult_le_pos; [exact P3|apply Rle_0_sqr]|exact E2]. }
    assert (Q2 : 2 * (3 + B) * zt * c1 * s * rsum nv (fun k => e k) <= 2 * (3 + B) * zt * c1 * s * (sqrt (INR nv) * (L * F))).
    { apply Rmult_le_compat_l; [|exact E1]. apply Rmult_le_pos; [|exact S0]. apply Rmult_le_pos; [|exact P1].
      apply Rmult_le_pos; [|lra]. lra. }
    set (sv := rsum nv (fun k => phi alpha (pa k + s * da k) (pbb k + s * db k) * phi alpha (pa k + s * da k) (pbb k + s * db k))) in *.
    assert (EZ : rsum nz (fun i => (1 - s) * sub_z P sigma xc xb i * ((1 - s) * sub_z P sigma xc xb i)) =
                 (1 - s) * (1 - s) * rsum nz (fun i => sub_z P sigma xc xb i * sub_z P sigma xc xb i)).
    { rewrite <- rsum_scal. apply rsum_ext; intros; ring. }
    assert (EL : rsum nl (fun i => (1 - s) * sub_l P sigma xc xb i * ((1 - s) * sub_l P sigma xc xb i)) =
                 (1 - s) * (1 - s) * rsum nl (fun i => sub_l P sigma xc xb i * sub_l P sigma xc xb i)).
    { rewrite <- rsum_scal. apply rsum_ext; intros; ring. }
    rewrite EZ, EL.
    assert (EC : cm = 1 / 2 * (rsum nz (fun i => sub_z P sigma xc xb i * sub_z P sigma xc xb i) +
      rsum nl (fun i => sub_l P sigma xc xb i * sub_l P sigma xc xb i) + rsum nv (fun k => sub_v alpha sigma xc xb k * sub_v alpha sigma xc xb k))).
    { reflexivity. }
    set (az := rsum nz (fun i => sub_z P sigma xc xb i * sub_z P sigma xc xb i)) in *.
    set (alh := rsum nl (fun i => sub_l P sigma xc xb i * sub_l P sigma xc xb i)) in *.
    set (av := rsum nv (fun k => sub_v alpha sigma xc xb k * sub_v alpha sigma xc xb k)) in *.
    assert (Pav : 0 <= av) by (apply rsum_nonneg; intros; apply Rle_0_sqr).
    set (X1 := c3 * (s * s) * (L * L * (2 * cm))) in *. set (X2 := 2 * (3 + B) * zt * c1 * s * (sqrt (INR nv) * (L * F))) in *.
    replace (s * s * ((1 + c3 * (L * L)) * cm)) with (s * s * cm + 1 / 2 * X1) by (unfold X1; field).
    replace (s * ((3 + B) * zt * c1 * (sqrt (INR nv) * (L * F)))) with (1 / 2 * X2) by (unfold X2; field).
    assert (PS : 0 <= s * s * av) by (apply Rmult_le_pos; [apply Rle_0_sqr|exact Pav]).
    clearbody X1 X2 az alh av sv. rewrite EC. lra.
  Qed.

  (* steps up to [tmax] pass the sufficient decrease test *)
  Lemma short_steps eta s : eta < 1 -> 0 <= s <= 1 ->
    s * (1 + fb_curv B dm * (L * L)) <= 1 - eta ->
    2 * (3 + B) * zero_tolerance Rops * fb_lip B dm * sqrt (INR nv) * L <= (1 - eta) * F ->
    m s <= cm - 2 * s * eta * cm.
  Proof.
    intros He HS H1 H2. assert (K := merit_upper s HS). set (C := 1 + fb_curv B dm * (L * L)) in *.
    assert (Pc : 0 <= cm) by (assert (0 <= F * F) by apply Rle_0_sqr; lra).
    assert (Q1 : s * s * (C * cm) <= s * ((1 - eta) * cm)).
    { replace (s * s * (C * cm)) with (s * (s * C * cm)) by ring. apply Rmult_le_compat_l; [lra|]. apply Rmult_le_compat_r; assumption. }
    assert (Q2 : s * ((3 + B) * zero_tolerance Rops * fb_lip B dm * (sqrt (INR nv) * (L * F))) <= s * ((1 - eta) * cm)).
    { apply Rmult_le_compat_l; [lra|].
      replace ((3 + B) * zero_tolerance Rops * fb_lip B dm * (sqrt (INR nv) * (L * F))) with
        (1 / 2 * ((2 * (3 + B) * zero_tolerance Rops * fb_lip B dm * sqrt (INR nv) * L) * F)) by field.
      replace ((1 - eta) * cm) with (1 / 2 * ((1 - eta) * F * F)) by (rewrite Rmult_assoc, FF; field).
      apply Rmult_le_compat_l; [lra|]. apply Rmult_le_compat_r; [exact HF|exact H2]. }
    lra.
  Qed.
End Decrease.
