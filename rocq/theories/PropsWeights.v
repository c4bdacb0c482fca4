(* C33: the weights of the Newton system over the reals; what PFBGradient computes. *)
From Verif Require Export NewtonSpec LinAlg.
Local Open Scope R_scope.

(* PFBGradient returns the pair (dphi/da, dphi/db) *)
Notation gradR := (PFBGradient Rops).

Lemma ztol_pos : 0 < zero_tolerance Rops.
Proof.
  unfold zero_tolerance. cbn [o_dec Rops]. unfold Rdec. cbn.
  apply Rmult_lt_0_compat; [lra|apply Rinv_0_lt_compat; lra].
Qed.
Lemma radius_le a b : Rabs a <= sqrt (a * a + b * b) /\ Rabs b <= sqrt (a * a + b * b).
Proof.
  assert (0 <= a * a) by apply Rle_0_sqr. assert (0 <= b * b) by apply Rle_0_sqr.
  rewrite <- (sqrt_Rsqr_abs a), <- (sqrt_Rsqr_abs b). unfold Rsqr. split; apply sqrt_le_1_alt; lra.
Qed.
Lemma radius_sq a b : sqrt (a * a + b * b) * sqrt (a * a + b * b) = a * a + b * b.
Proof.
  assert (0 <= a * a) by apply Rle_0_sqr. assert (0 <= b * b) by apply Rle_0_sqr.
  apply sqrt_sqrt. lra.
Qed.
Lemma one_minus_ratio a r : 0 < r -> Rabs a <= r -> 0 <= 1 - a / r.
Proof.
  intros Hr Ha. assert (a <= r) by (eapply Rle_trans; [apply Rle_abs|exact Ha]).
  assert (a / r <= 1); [|lra]. apply Rmult_le_reg_r with r; [exact Hr|]. field_simplify; lra.
Qed.
Lemma one_minus_ratio_zero a r : 0 < r -> 1 - a / r = 0 -> a = r.
Proof.
  intros Hr E. assert (a / r = 1) by lra. replace a with (a / r * r) by (field; lra). rewrite H. ring.
Qed.

Lemma inv_sqrt2_lt_1 : 1 / sqrt 2 < 1.
Proof.
  assert (1 < sqrt 2) by (rewrite <- sqrt_1; apply sqrt_lt_1_alt; lra).
  apply Rmult_lt_reg_r with (sqrt 2); [lra|]. field_simplify; lra.
Qed.

(* every weight pair is nonnegative, the entry the solver divides by is positive *)
Theorem C33_weight_pair : forall alpha sigma a b, 0 < alpha < 1 -> 0 < sigma ->
  0 <= fst (gradR alpha a b) /\ 0 <= snd (gradR alpha a b) /\
  0 < snd (gradR alpha a b) + sigma * fst (gradR alpha a b).
Proof.
  intros alpha sigma a b [A0 A1] S.
  unfold PFBGradient. cbn [o_ltb o_sqrt o_add o_mul o_sub o_div o_one o_zero Rops].
  replace (o_two Rops) with 2 by (unfold o_two; cbn; lra).
  set (r := sqrt (a * a + b * b)).
  destruct (Rltb r (zero_tolerance Rops)) eqn:E.
  - cbn [fst snd]. assert (K := inv_sqrt2_lt_1).
    assert (0 < alpha * (1 - 1 / sqrt 2)) by (apply Rmult_lt_0_compat; lra). nra.
  - apply Rltb_false in E. assert (Z := ztol_pos). assert (Hr : 0 < r) by lra.
    destruct (radius_le a b) as [Ra Rb]. fold r in Ra, Rb.
    assert (Pa := one_minus_ratio a r Hr Ra). assert (Pb := one_minus_ratio b r Hr Rb).
    destruct (Rltb 0 a && Rltb 0 b) eqn:E2; cbn [fst snd].
    + apply andb_prop in E2. destruct E2 as [Xa Xb]. apply Rltb_true in Xa, Xb.
      assert (0 < (1 - alpha) * b) by (apply Rmult_lt_0_compat; lra).
      assert (0 < (1 - alpha) * a) by (apply Rmult_lt_0_compat; lra).
      assert (0 <= alpha * (1 - a / r)) by (apply Rmult_le_pos; lra).
      assert (0 <= alpha * (1 - b / r)) by (apply Rmult_le_pos; lra).
      set (ga := alpha * (1 - a / r) + (1 - alpha) * b).
      assert (0 < ga) by (unfold ga; lra). nra.
    + assert (0 <= alpha * (1 - a / r)) by (apply Rmult_le_pos; lra).
      assert (0 <= alpha * (1 - b / r)) by (apply Rmult_le_pos; lra).
      split; [assumption|split; [assumption|]].
      destruct (Req_dec (1 - a / r) 0) as [Za|Za].
      * destruct (Req_dec (1 - b / r) 0) as [Zb|Zb].
        -- apply one_minus_ratio_zero in Za; [|exact Hr]. apply one_minus_ratio_zero in Zb; [|exact Hr].
           assert (K := radius_sq a b). fold r in K. rewrite Za, Zb in K. nra.
        -- assert (0 < alpha * (1 - b / r)) by (apply Rmult_lt_0_compat; lra).
           assert (0 <= sigma * (alpha * (1 - a / r))) by (apply Rmult_le_pos; lra). lra.
      * assert (0 < alpha * (1 - a / r)) by (apply Rmult_lt_0_compat; lra).
        assert (0 < sigma * (alpha * (1 - a / r))) by (apply Rmult_lt_0_compat; lra). lra.
Qed.
Print Assumptions C33_weight_pair.

(* the whole weight vectors: gamma >= 0, mus > 0, so the quotient Gamma is defined, >= 0 and
   Gamma*mus = gamma *)
Theorem C33_weights : forall alpha sigma (x xbar : var R) nv, 0 < alpha < 1 -> 0 < sigma ->
  let gamma := w_gamma Rops alpha sigma x xbar nv in
  let mus := w_mus Rops alpha sigma x xbar nv in
  length gamma = nv /\ length mus = nv /\ length (w_Gamma Rops gamma mus) = nv /\
  forall i, (i < nv)%nat ->
    0 <= rg gamma i /\ 0 < rg mus i /\ rg (w_Gamma Rops gamma mus) i = rg gamma i / rg mus i /\
    0 <= rg (w_Gamma Rops gamma mus) i.
Proof.
  intros alpha sigma x xbar nv A S gamma mus.
  assert (L1 : length gamma = nv) by apply tab_length.
  assert (L2 : length mus = nv) by apply tab_length.
  split; [exact L1|]. split; [exact L2|].
  split; [unfold w_Gamma; autorewrite with vlen; exact L1|]. intros i Hi.
  unfold w_Gamma, vquot. rewrite L1, (vget_tab Rops) by exact Hi. cbn [o_div Rops].
  assert (Eg : rg gamma i = fst (gradR alpha (pfb_ys Rops x xbar sigma i) (rg (v_v x) i))).
  { unfold gamma, w_gamma. apply (vget_tab Rops). exact Hi. }
  assert (Em : rg mus i = snd (gradR alpha (pfb_ys Rops x xbar sigma i) (rg (v_v x) i)) +
      sigma * fst (gradR alpha (pfb_ys Rops x xbar sigma i) (rg (v_v x) i))).
  { unfold mus, w_mus. rewrite (vget_tab Rops) by exact Hi. reflexivity. }
  destruct (C33_weight_pair alpha sigma (pfb_ys Rops x xbar sigma i) (rg (v_v x) i) A S) as (G1 & G2 & G3).
  rewrite <- Eg in G1. rewrite <- Em in G3. repeat split; try assumption.
  apply Rmult_le_pos; [exact G1|left; apply Rinv_0_lt_compat; exact G3].
Qed.
Print Assumptions C33_weights.

(* the hypotheses are met, and both nontrivial branches occur *)
Example C33_example : 
  gradR (95 / 100) 3 4 = (95 / 100 * (1 - 3 / 5) + (1 - 95 / 100) * 4, 95 / 100 * (1 - 4 / 5) + (1 - 95 / 100) * 3) /\
  gradR (95 / 100) (-3) 4 = (95 / 100 * (1 - (-3) / 5), 95 / 100 * (1 - 4 / 5)).
Proof.
  assert (Z : zero_tolerance Rops < 1).
  { unfold zero_tolerance. cbn [o_dec Rops]. unfold Rdec. cbn. lra. }
  assert (E1 : sqrt (3 * 3 + 4 * 4) = 5).
  { replace (3 * 3 + 4 * 4) with (5 * 5) by lra. apply sqrt_square. lra. }
  assert (E2 : sqrt (-3 * -3 + 4 * 4) = 5).
  { replace (-3 * -3 + 4 * 4) with (5 * 5) by lra. apply sqrt_square. lra. }
  unfold PFBGradient; cbn [o_ltb o_sqrt o_add o_mul o_sub o_div o_one o_zero Rops].
  rewrite E1, E2.
  assert (F : Rltb 5 (zero_tolerance Rops) = false) by (apply Rltb_false; lra). rewrite F.
  assert (P3 : Rltb 0 3 = true) by (apply Rltb_true; lra).
  assert (P4 : Rltb 0 4 = true) by (apply Rltb_true; lra).
  assert (N3 : Rltb 0 (-3) = false) by (apply Rltb_false; lra).
  rewrite P3, P4, N3. cbn [andb]. split; reflexivity.
Qed.

(* ---------- the weights are the derivatives of the residual ---------- *)

Lemma deriv_local f g l t0 delta : 0 < delta -> (forall t, Rabs (t - t0) < delta -> f t = g t) ->
  derivable_pt_lim f t0 l -> derivable_pt_lim g t0 l.
Proof.
  intros Hd E D eps He. destruct (D eps He) as [d Hd'].
  assert (M : 0 < Rmin delta d) by (apply Rmin_pos; [exact Hd|apply cond_pos]).
  exists (mkposreal _ M). cbn. intros h Hh Hm.
  rewrite <- !E.
  - apply Hd'; [exact Hh|]. eapply Rlt_le_trans; [exact Hm|apply Rmin_r].
  - rewrite Rminus_diag_eq by reflexivity. rewrite Rabs_R0. exact Hd.
  - replace (t0 + h - t0) with h by ring. eapply Rlt_le_trans; [exact Hm|apply Rmin_l].
Qed.

Lemma deriv_affine a p t0 : derivable_pt_lim (fun t => a + t * p) t0 p.
Proof.
  intros eps He. exists (mkposreal _ He). intros h Hh _. cbn.
  replace ((a + (t0 + h) * p - (a + t0 * p)) / h - p) with 0 by (field; exact Hh).
  rewrite Rabs_R0. exact He.
Qed.
Lemma deriv_ext f g l t0 : (forall t, f t = g t) -> derivable_pt_lim f t0 l -> derivable_pt_lim g t0 l.
Proof. intro E. apply (deriv_local f g l t0 1); [lra|]. intros; apply E. Qed.
Lemma deriv_val f l l' t0 : l = l' -> derivable_pt_lim f t0 l -> derivable_pt_lim f t0 l'.
Proof. intros ->. exact (fun H => H). Qed.

(* the Fischer-Burmeister part *)
Lemma deriv_radius a b p q : 0 < a * a + b * b ->
  derivable_pt_lim (fun t => sqrt ((a + t * p) * (a + t * p) + (b + t * q) * (b + t * q))) 0
    ((a * p + b * q) / sqrt (a * a + b * b)).
Proof.
  intro H.
  assert (D1 : derivable_pt_lim (fun t => (a + t * p) * (a + t * p) + (b + t * q) * (b + t * q)) 0
               (2 * (a * p + b * q))).
  { eapply deriv_val; [|apply (derivable_pt_lim_plus (fun t => (a + t * p) * (a + t * p))
       (fun t => (b + t * q) * (b + t * q)) 0)].
    2:{ apply (derivable_pt_lim_mult (fun t => a + t * p) (fun t => a + t * p)); apply deriv_affine. }
    2:{ apply (derivable_pt_lim_mult (fun t => b + t * q) (fun t => b + t * q)); apply deriv_affine. }
    cbn beta. ring. }
  assert (Hs : 0 < sqrt (a * a + b * b)) by (apply sqrt_lt_R0; exact H).
  eapply deriv_val; [|apply (derivable_pt_lim_comp _ sqrt 0 _ (/ (2 * sqrt (a * a + b * b))) D1)].
  - field. lra.
  - replace ((a + 0 * p) * (a + 0 * p) + (b + 0 * q) * (b + 0 * q)) with (a * a + b * b) by ring.
    apply derivable_pt_lim_sqrt. exact H.
Qed.

Lemma deriv_fb a b p q : 0 < a * a + b * b ->
  derivable_pt_lim (fun t => (a + t * p) + (b + t * q) -
      sqrt ((a + t * p) * (a + t * p) + (b + t * q) * (b + t * q))) 0
    ((1 - a / sqrt (a * a + b * b)) * p + (1 - b / sqrt (a * a + b * b)) * q).
Proof.
  intro H. assert (Hs : 0 < sqrt (a * a + b * b)) by (apply sqrt_lt_R0; exact H).
  eapply deriv_val; [|apply (derivable_pt_lim_minus (fun t => (a + t * p) + (b + t * q)))].
  2:{ apply (derivable_pt_lim_plus (fun t => a + t * p) (fun t => b + t * q)); apply deriv_affine. }
  2:{ apply deriv_radius. exact H. }
  field. lra.
Qed.

(* away from the kinks of phi *)
Definition smooth_pair (a b : R) : Prop := a < 0 \/ b < 0 \/ (0 < a /\ 0 < b).

Lemma near a p : a <> 0 -> exists d, 0 < d /\ forall t, Rabs (t - 0) < d ->
  (0 < a -> 0 < a + t * p) /\ (a < 0 -> a + t * p < 0).
Proof.
  intro Ha. exists (Rabs a / (Rabs p + 1)). 
  assert (Pa : 0 < Rabs a) by (apply Rabs_pos_lt; exact Ha).
  assert (Pp := Rabs_pos p).
  split; [apply Rmult_lt_0_compat; [exact Pa|apply Rinv_0_lt_compat; lra]|].
  intros t Ht. rewrite Rminus_0_r in Ht.
  assert (K : Rabs (t * p) < Rabs a).
  { rewrite Rabs_mult. apply Rle_lt_trans with (Rabs t * (Rabs p + 1)).
    - apply Rmult_le_compat_l; [apply Rabs_pos|lra].
    - apply Rmult_lt_reg_r with (/ (Rabs p + 1)); [apply Rinv_0_lt_compat; lra|].
      rewrite Rmult_assoc, Rinv_r, Rmult_1_r by lra. exact Ht. }
  split; intro S.
  - rewrite (Rabs_pos_eq a) in K by lra. apply Rabs_def2 in K. lra.
  - rewrite (Rabs_left a) in K by lra. apply Rabs_def2 in K. lra.
Qed.

Lemma posprod_zero a b : a <= 0 \/ b <= 0 -> Rmax 0 a * Rmax 0 b = 0.
Proof.
  intros [H|H].
  - rewrite (Rmax_left 0 a) by exact H. ring.
  - rewrite (Rmax_left 0 b) by exact H. ring.
Qed.
Lemma posprod_pos a b : 0 <= a -> 0 <= b -> Rmax 0 a * Rmax 0 b = a * b.
Proof. intros. rewrite !Rmax_right by assumption. reflexivity. Qed.

(* the weights are the gradient of phi at every pair where phi is differentiable (outside the
   ball of radius 1e-13 in which the code substitutes a fixed element) *)
Theorem C33_gradient : forall alpha a b p q, smooth_pair a b ->
  zero_tolerance Rops <= sqrt (a * a + b * b) ->
  derivable_pt_lim (fun t => phi alpha (a + t * p) (b + t * q)) 0
    (fst (gradR alpha a b) * p + snd (gradR alpha a b) * q).
Proof.
  intros alpha a b p q S Hr.
  assert (Z := ztol_pos). set (r := sqrt (a * a + b * b)) in *.
  assert (Hq : 0 < a * a + b * b).
  { assert (K := radius_sq a b). fold r in K. rewrite <- K. apply Rmult_lt_0_compat; lra. }
  assert (F := deriv_fb a b p q Hq). fold r in F.
  unfold PFBGradient. cbn [o_ltb o_sqrt o_add o_mul o_sub o_div o_one o_zero Rops]. fold r.
  assert (E : Rltb r (zero_tolerance Rops) = false) by (apply Rltb_false; lra). rewrite E.
  assert (G := derivable_pt_lim_scal _ alpha 0 _ F). unfold mult_real_fct in G.
  destruct S as [S|[S|[Sa Sb]]].
  - assert (X : Rltb 0 a = false) by (apply Rltb_false; lra). rewrite X. cbn [andb fst snd].
    destruct (near a p ltac:(lra)) as (d & Hd & N).
    eapply deriv_val; [|eapply (deriv_local _ (fun t => phi alpha (a + t * p) (b + t * q)) _ 0 d Hd); [|exact G]]; [cbn beta; lra|].
    intros t Ht.
    cbn beta. unfold phi. rewrite Rmult_assoc, posprod_zero; [ring|]. left. destruct (N t Ht). lra.
  - assert (X : Rltb 0 b = false) by (apply Rltb_false; lra). rewrite X, andb_false_r. cbn [fst snd].
    destruct (near b q ltac:(lra)) as (d & Hd & N).
    eapply deriv_val; [|eapply (deriv_local _ (fun t => phi alpha (a + t * p) (b + t * q)) _ 0 d Hd); [|exact G]]; [cbn beta; lra|].
    intros t Ht.
    cbn beta. unfold phi. rewrite Rmult_assoc, posprod_zero; [ring|]. right. destruct (N t Ht). lra.
  - assert (X : Rltb 0 a = true) by (apply Rltb_true; lra).
    assert (Y : Rltb 0 b = true) by (apply Rltb_true; lra). rewrite X, Y. cbn [andb fst snd].
    destruct (near a p ltac:(lra)) as (d1 & Hd1 & N1).
    destruct (near b q ltac:(lra)) as (d2 & Hd2 & N2).
    assert (M : derivable_pt_lim (fun t => (1 - alpha) * ((a + t * p) * (b + t * q))) 0
                  ((1 - alpha) * (p * b + a * q))).
    { apply (derivable_pt_lim_scal (fun t => (a + t * p) * (b + t * q))).
      eapply deriv_val; [|apply (derivable_pt_lim_mult (fun t => a + t * p) (fun t => b + t * q)); apply deriv_affine].
      cbn beta. ring. }
    assert (GM := derivable_pt_lim_plus _ _ _ _ _ G M). unfold plus_fct in GM.
    eapply deriv_val; [|eapply (deriv_local _ (fun t => phi alpha (a + t * p) (b + t * q)) _ 0 (Rmin d1 d2) (Rmin_pos _ _ Hd1 Hd2)); [|exact GM]]; [cbn beta; lra|].
    intros t Ht.
    cbn beta. unfold phi. rewrite Rmult_assoc, posprod_pos; [ring| |].
    + destruct (N1 t (Rlt_le_trans _ _ _ Ht (Rmin_l _ _))) as [N _]. left. apply N. exact Sa.
    + destruct (N2 t (Rlt_le_trans _ _ _ Ht (Rmin_r _ _))) as [N _]. left. apply N. exact Sb.
Qed.
Print Assumptions C33_gradient.
