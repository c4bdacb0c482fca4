(* C50: on a convex problem the Newton step is a descent direction of the merit function, so the
   line search can only reject steps longer than a positive threshold. *)
From Verif Require Export PropsConvex.
Local Open Scope R_scope.

(* ---------- specification ---------- *)
(* the point xc + s*dx, with its constraint margin *)
Definition on_line (P : QP) (xc dx : var R) (s : R) : var R :=
  let z := tab (n_z P) (fun i => rg (v_z xc) i + s * rg (v_z dx) i) in
  mkVar z (tab (n_l P) (fun k => rg (v_l xc) k + s * rg (v_l dx) k))
        (tab (n_v P) (fun k => rg (v_v xc) k + s * rg (v_v dx) k))
        (tab (n_v P) (fun k => margin P (rg z) k)).
(* the merit function of the proximal subproblem centred at xb: half the squared norm of its
   residual *)
Definition merit_of (P : QP) (alpha sigma : R) (x xb : var R) : R :=
  1 / 2 * sumsq P (sub_z P sigma x xb) (sub_l P sigma x xb) (sub_v alpha sigma x xb).
(* no pair (margin + sigma(v - vb), v) lies inside the punctured ball of radius 1e-13 around the
   origin, where the code replaces the derivative by a fixed element *)
Definition regular_pairs (P : QP) (sigma : R) (x xb : var R) : Prop :=
  forall k, (k < n_v P)%nat ->
    let a := rg (v_y x) k + sigma * (rg (v_v x) k - rg (v_v xb) k) in
    let b := rg (v_v x) k in
    (a = 0 /\ b = 0) \/ zero_tolerance Rops <= sqrt (a * a + b * b).

(* ---------- analysis of the squared penalised Fischer-Burmeister function ---------- *)
Lemma fb_bound A B : Rabs (A + B - sqrt (A * A + B * B)) <= 2 * Rabs A + 2 * Rmax 0 (- B).
Proof.
  destruct (radius_le A B) as [KA KB].
  assert (Hs : 0 <= sqrt (A * A + B * B)) by apply sqrt_pos.
  assert (Q := radius_sq A B). set (s := sqrt _) in *.
  assert (U : s <= Rabs A + Rabs B).
  { assert (PA := Rabs_pos A). assert (PB := Rabs_pos B).
    assert (EA : Rabs A * Rabs A = A * A) by (rewrite <- Rabs_mult; apply Rabs_pos_eq, Rle_0_sqr).
    assert (EB : Rabs B * Rabs B = B * B) by (rewrite <- Rabs_mult; apply Rabs_pos_eq, Rle_0_sqr).
    apply Rnot_lt_le. intro L.
    assert ((Rabs A + Rabs B) * (Rabs A + Rabs B) < s * s) by (apply Rmult_le_0_lt_compat; lra).
    assert (0 <= Rabs A * Rabs B) by (apply Rmult_le_pos; lra). lra. }
  apply Rabs_le. unfold Rabs, Rmax in *.
  destruct (Rcase_abs A), (Rcase_abs B), (Rle_dec 0 (- B)); lra.
Qed.

Lemma kink_bound alpha b p q : 0 < alpha < 1 -> 0 <= b -> exists C, forall t, Rabs t <= 1 ->
  Rabs (phi alpha (0 + t * p) (b + t * q)) <= C * Rabs t.
Proof.
  intros Ha Hb. exists (2 * Rabs p + 2 * Rabs q + Rabs p * (b + Rabs q)). intros t Ht.
  assert (P0 := Rabs_pos t). assert (P1 := Rabs_pos p). assert (P2 := Rabs_pos q).
  unfold phi. rewrite Rplus_0_l. set (A := t * p). set (B := b + t * q).
  assert (EA : Rabs A = Rabs t * Rabs p) by apply Rabs_mult.
  assert (EB : Rabs (t * q) = Rabs t * Rabs q) by apply Rabs_mult.
  assert (F := fb_bound A B).
  assert (NB : Rmax 0 (- B) <= Rabs t * Rabs q).
  { rewrite <- EB. apply Rmax_lub; [apply Rabs_pos|]. unfold B. assert (K := Rle_abs (- (t * q))).
    rewrite Rabs_Ropp in K. lra. }
  assert (M1 : 0 <= Rmax 0 A <= Rabs t * Rabs p).
  { split; [apply Rmax_l|]. rewrite <- EA. apply Rmax_lub; [apply Rabs_pos|apply Rle_abs]. }
  assert (M2 : 0 <= Rmax 0 B <= b + Rabs q).
  { split; [apply Rmax_l|]. apply Rmax_lub; [lra|]. unfold B. assert (K := Rle_abs (t * q)).
    assert (Rabs t * Rabs q <= 1 * Rabs q) by (apply Rmult_le_compat_r; lra). lra. }
  assert (M3 : 0 <= Rmax 0 A * Rmax 0 B <= Rabs t * Rabs p * (b + Rabs q)).
  { split; [apply Rmult_le_pos; lra|apply Rmult_le_compat; lra]. }
  eapply Rle_trans; [apply Rabs_triang|].
  rewrite Rabs_mult, (Rabs_pos_eq alpha) by lra.
  rewrite Rmult_assoc, Rabs_mult, (Rabs_pos_eq (1 - alpha)), (Rabs_pos_eq (Rmax 0 A * Rmax 0 B)) by lra.
  set (f := Rabs (A + B - _)) in *. set (m := Rmax 0 A * Rmax 0 B) in *.
  assert (0 <= f) by apply Rabs_pos.
  assert (alpha * f <= 1 * f) by (apply Rmult_le_compat_r; lra).
  assert ((1 - alpha) * m <= 1 * m) by (apply Rmult_le_compat_r; lra).
  nra.
Qed.

Lemma sq_small f C : (forall t, Rabs t <= 1 -> Rabs (f t) <= C * Rabs t) ->
  derivable_pt_lim (fun t => f t * f t) 0 0.
Proof.
  intros H eps He.
  assert (PC : 0 < C * C + 1) by (assert (0 <= C * C) by apply Rle_0_sqr; lra).
  assert (M : 0 < Rmin 1 (eps / (C * C + 1))).
  { apply Rmin_pos; [lra|]. apply Rmult_lt_0_compat; [exact He|apply Rinv_0_lt_compat; exact PC]. }
  exists (mkposreal _ M). cbn. intros h Hh Hm. rewrite Rplus_0_l.
  assert (F0 : f 0 = 0).
  { assert (K := H 0). rewrite Rabs_R0 in K. specialize (K ltac:(lra)).
    destruct (Req_dec (f 0) 0) as [Z0|Z0]; [exact Z0|]. apply Rabs_pos_lt in Z0. lra. }
  assert (B1 : Rabs h < 1) by (eapply Rlt_le_trans; [exact Hm|apply Rmin_l]).
  assert (B2 : Rabs h < eps / (C * C + 1)) by (eapply Rlt_le_trans; [exact Hm|apply Rmin_r]).
  assert (K := H h ltac:(lra)). assert (Ph : 0 < Rabs h) by (apply Rabs_pos_lt; exact Hh).
  replace ((f h * f h - f 0 * f 0) / h - 0) with (f h * f h / h) by (rewrite F0; field; exact Hh).
  unfold Rdiv. rewrite Rabs_mult, Rabs_mult, Rabs_inv.
  assert (G : Rabs (f h) * Rabs (f h) <= (C * Rabs h) * (C * Rabs h)).
  { apply Rmult_le_compat; auto using Rabs_pos. }
  apply Rle_lt_trans with (C * C * Rabs h).
  - apply Rmult_le_reg_r with (Rabs h); [exact Ph|]. rewrite Rmult_assoc, Rinv_l, Rmult_1_r by lra. lra.
  - apply Rle_lt_trans with ((C * C + 1) * Rabs h); [nra|].
    apply Rmult_lt_reg_r with (/ (C * C + 1)); [apply Rinv_0_lt_compat; exact PC|].
    replace ((C * C + 1) * Rabs h * / (C * C + 1)) with (Rabs h) by (field; lra). exact B2.
Qed.

Lemma phi_sym alpha a b : phi alpha a b = phi alpha b a.
Proof.
  unfold phi. rewrite (Rplus_comm a b), (Rplus_comm (a * a)). ring.
Qed.
Lemma phi_axis alpha b : 0 <= b -> phi alpha 0 b = 0.
Proof.
  intro H. unfold phi. rewrite Rmult_assoc, posprod_zero by (left; lra).
  replace (0 * 0 + b * b) with (b * b) by ring. rewrite sqrt_square by exact H. ring.
Qed.

(* the derivative of phi^2 along any direction, at every regular pair, kinks included *)
Lemma half_sq_deriv alpha a b p q : 0 < alpha < 1 ->
  (a = 0 /\ b = 0) \/ zero_tolerance Rops <= sqrt (a * a + b * b) ->
  derivable_pt_lim (fun t => phi alpha (a + t * p) (b + t * q) * phi alpha (a + t * p) (b + t * q)) 0
    (2 * (phi alpha a b * (fst (gradR alpha a b) * p + snd (gradR alpha a b) * q))).
Proof.
  intros Ha R.
  assert (KINK : forall a b p q, a = 0 -> 0 <= b ->
    phi alpha a b = 0 /\
    derivable_pt_lim (fun t => phi alpha (a + t * p) (b + t * q) * phi alpha (a + t * p) (b + t * q)) 0 0).
  { intros a0 b0 p0 q0 -> Hb. split; [apply phi_axis; exact Hb|].
    destruct (kink_bound alpha b0 p0 q0 Ha Hb) as [C K]. exact (sq_small _ C K). }
  destruct (Rlt_dec a 0) as [Na|Na]; [|destruct (Rlt_dec b 0) as [Nb|Nb]].
  3: destruct (Req_dec a 0) as [Za|Za]; [|destruct (Req_dec b 0) as [Zb|Zb]].
  3:{ destruct (KINK a b p q Za ltac:(lra)) as [E K]. rewrite E. eapply deriv_val; [|exact K]. ring. }
  3:{ destruct (KINK b a q p Zb ltac:(lra)) as [E K]. rewrite phi_sym, E.
      eapply deriv_val; [|eapply deriv_ext; [|exact K]]; [ring|]. intro t. cbn beta.
      rewrite (phi_sym alpha (a + t * p)). reflexivity. }
  all: destruct R as [R|R]; [lra|].
  all: assert (SP : smooth_pair a b) by (unfold smooth_pair; lra).
  all: assert (G := C33_gradient alpha a b p q SP R).
  all: eapply deriv_val; [|apply (derivable_pt_lim_mult _ _ 0 _ _ G G)]; cbn beta; rewrite !Rmult_0_l, !Rplus_0_r; ring.
Qed.

Lemma rsum_deriv n (f : nat -> R -> R) (l : nat -> R) t0 :
  (forall i, (i < n)%nat -> derivable_pt_lim (f i) t0 (l i)) ->
  derivable_pt_lim (fun t => rsum n (fun i => f i t)) t0 (rsum n l).
Proof.
  induction n as [|n IH]; intro H.
  - cbn. apply derivable_pt_lim_const.
  - cbn [rsum]. apply (derivable_pt_lim_plus (fun t => rsum n (fun i => f i t)) (f n)).
    + apply IH. intros; apply H; lia.
    + apply H; lia.
Qed.
Lemma shrink_deriv c : derivable_pt_lim (fun t => (1 - t) * c * ((1 - t) * c)) 0 (- (2 * (c * c))).
Proof.
  assert (A := deriv_affine c (- c) 0).
  eapply deriv_val; [|eapply deriv_ext; [|apply (derivable_pt_lim_mult _ _ 0 _ _ A A)]].
  - cbn beta. ring.
  - intro t. unfold mult_fct. ring.
Qed.

(* ---------- the merit along the Newton direction ---------- *)
Section Line.
  Context (P : QP) (alpha sigma : R) (xc xb dx : var R).
  Notation nz := (n_z P). Notation nl := (n_l P). Notation nv := (n_v P).
  Hypothesis Ha : 0 < alpha < 1.
  Hypothesis Hs : 0 < sigma.
  Hypothesis Cv : convex P.
  Hypothesis Mc : y_is_margin P xc.
  Notation gam := (rg (w_gamma Rops alpha sigma xc xb nv)).
  Notation mus := (rg (w_mus Rops alpha sigma xc xb nv)).
  Hypothesis NS : newton_system P sigma gam mus (rg (v_z dx)) (rg (v_l dx)) (rg (v_v dx))
    (fun i => - sub_z P sigma xc xb i) (fun k => - sub_l P sigma xc xb k) (fun k => - sub_v alpha sigma xc xb k).

  Notation pa k := (rg (v_y xc) k + sigma * (rg (v_v xc) k - rg (v_v xb) k)).
  Notation pbb k := (rg (v_v xc) k).
  Notation da k := (- times nz (cA P) (rg (v_z dx)) k + sigma * rg (v_v dx) k).
  Notation db k := (rg (v_v dx) k).
  Notation L s := (on_line P xc dx s).

  Lemma times_line m M (u w : nat -> R) (v : vec R) s i : (forall j, (j < m)%nat -> rg v j = u j + s * w j) ->
    times m M (rg v) i = times m M u i + s * times m M w i.
  Proof.
    intro E. unfold times. rewrite <- rsum_scal, <- rsum_add. apply rsum_ext. intros j Hj. rewrite E by exact Hj. ring.
  Qed.
  Lemma ttimes_line m M (u w : nat -> R) (v : vec R) s i : (forall j, (j < m)%nat -> rg v j = u j + s * w j) ->
    ttimes m M (rg v) i = ttimes m M u i + s * ttimes m M w i.
  Proof.
    intro E. unfold ttimes. rewrite <- rsum_scal, <- rsum_add. apply rsum_ext. intros j Hj. rewrite E by exact Hj. ring.
  Qed.
  Lemma Lz s i : (i < nz)%nat -> rg (v_z (L s)) i = rg (v_z xc) i + s * rg (v_z dx) i.
  Proof. intro Hi. unfold on_line. cbn [v_z]. apply (vget_tab Rops). exact Hi. Qed.
  Lemma Ll s i : (i < nl)%nat -> rg (v_l (L s)) i = rg (v_l xc) i + s * rg (v_l dx) i.
  Proof. intro Hi. unfold on_line. cbn [v_l]. apply (vget_tab Rops). exact Hi. Qed.
  Lemma Lv s i : (i < nv)%nat -> rg (v_v (L s)) i = rg (v_v xc) i + s * rg (v_v dx) i.
  Proof. intro Hi. unfold on_line. cbn [v_v]. apply (vget_tab Rops). exact Hi. Qed.
  Lemma Ly s k : (k < nv)%nat -> rg (v_y (L s)) k = rg (v_y xc) k - s * times nz (cA P) (rg (v_z dx)) k.
  Proof.
    intro Hk. assert (E : rg (v_y (L s)) k = margin P (rg (v_z (L s))) k).
    { unfold on_line. cbn [v_y v_z]. apply (vget_tab Rops). exact Hk. }
    rewrite E, Mc by exact Hk. unfold margin.
    rewrite (times_line nz (cA P) (rg (v_z xc)) (rg (v_z dx)) _ s k); [ring|]. intros; apply Lz; assumption.
  Qed.

  Lemma line_z s i : (i < nz)%nat -> sub_z P sigma (L s) xb i = (1 - s) * sub_z P sigma xc xb i.
  Proof.
    intro Hi. destruct NS as (N1 & _). specialize (N1 i Hi). revert N1.
    unfold sub_z, res_z, lagr. 
    rewrite (times_line nz (cH P) (rg (v_z xc)) (rg (v_z dx)) (v_z (L s)) s i) by (intros; apply Lz; assumption).
    rewrite (ttimes_line nl (cG P) (rg (v_l xc)) (rg (v_l dx)) (v_l (L s)) s i) by (intros; apply Ll; assumption).
    rewrite (ttimes_line nv (cA P) (rg (v_v xc)) (rg (v_v dx)) (v_v (L s)) s i) by (intros; apply Lv; assumption).
    rewrite Lz by exact Hi. intro N1.
    set (h1 := times nz (cH P) (rg (v_z dx)) i) in *. set (g1 := ttimes nl (cG P) (rg (v_l dx)) i) in *.
    set (a1 := ttimes nv (cA P) (rg (v_v dx)) i) in *.
    set (h0 := times nz (cH P) (rg (v_z xc)) i) in *. set (g0 := ttimes nl (cG P) (rg (v_l xc)) i) in *.
    set (a0 := ttimes nv (cA P) (rg (v_v xc)) i) in *.
    replace h1 with (- (h0 + cf P i + g0 + a0 + sigma * (rg (v_z xc) i - rg (v_z xb) i)) - sigma * rg (v_z dx) i - g1 - a1) by lra.
    ring.
  Qed.
  Lemma line_l s k : (k < nl)%nat -> sub_l P sigma (L s) xb k = (1 - s) * sub_l P sigma xc xb k.
  Proof.
    intro Hk. destruct NS as (_ & N2 & _). specialize (N2 k Hk). revert N2.
    unfold sub_l, res_l.
    rewrite (times_line nz (cG P) (rg (v_z xc)) (rg (v_z dx)) (v_z (L s)) s k) by (intros; apply Lz; assumption).
    rewrite Ll by exact Hk. intro N2.
    set (g1 := times nz (cG P) (rg (v_z dx)) k) in *. set (g0 := times nz (cG P) (rg (v_z xc)) k) in *.
    replace g1 with (sigma * rg (v_l dx) k + (ch P k - g0 + sigma * (rg (v_l xc) k - rg (v_l xb) k))) by lra.
    ring.
  Qed.
  Lemma line_v s k : (k < nv)%nat ->
    sub_v alpha sigma (L s) xb k = phi alpha (pa k + s * da k) (pbb k + s * db k).
  Proof.
    intro Hk. unfold sub_v. rewrite Ly, Lv by exact Hk. f_equal. ring.
  Qed.
  Lemma pair_dir k : (k < nv)%nat ->
    fst (gradR alpha (pa k) (pbb k)) * da k + snd (gradR alpha (pa k) (pbb k)) * db k = - phi alpha (pa k) (pbb k).
  Proof.
    intro Hk. destruct NS as (_ & _ & N3). specialize (N3 k Hk). revert N3.
    unfold w_gamma, w_mus. rewrite !(vget_tab Rops) by exact Hk. unfold sub_v, pfb_ys.
    cbn [o_add o_mul o_sub Rops]. intro N3. rewrite <- N3. ring.
  Qed.

  Notation m s := (merit_of P alpha sigma (L s) xb).
  Notation cm := (merit_of P alpha sigma xc xb).

  Lemma line_merit s : m s = 1 / 2 * (rsum nz (fun i => (1 - s) * sub_z P sigma xc xb i * ((1 - s) * sub_z P sigma xc xb i)) +
      rsum nl (fun i => (1 - s) * sub_l P sigma xc xb i * ((1 - s) * sub_l P sigma xc xb i)) +
      rsum nv (fun k => phi alpha (pa k + s * da k) (pbb k + s * db k) * phi alpha (pa k + s * da k) (pbb k + s * db k))).
  Proof.
    unfold merit_of, sumsq. f_equal. f_equal; [f_equal|]; apply rsum_ext; intros i Hi.
    - rewrite line_z by exact Hi. ring.
    - rewrite line_l by exact Hi. ring.
    - rewrite line_v by exact Hi. ring.
  Qed.
  Lemma merit_start : m 0 = cm.
  Proof.
    rewrite line_merit. unfold merit_of, sumsq. f_equal. f_equal; [f_equal|]; apply rsum_ext; intros i Hi.
    - ring.
    - ring.
    - rewrite !Rmult_0_l, !Rplus_0_r. reflexivity.
  Qed.

  Lemma merit_deriv : regular_pairs P sigma xc xb -> derivable_pt_lim (fun s => m s) 0 (- (2 * cm)).
  Proof.
    intro RP. eapply deriv_ext; [intro s; symmetry; apply line_merit|].
    eapply deriv_val; [|apply (derivable_pt_lim_scal (fun s => 
      (rsum nz (fun i => (1 - s) * sub_z P sigma xc xb i * ((1 - s) * sub_z P sigma xc xb i)) +
      rsum nl (fun i => (1 - s) * sub_l P sigma xc xb i * ((1 - s) * sub_l P sigma xc xb i)) +
      rsum nv (fun k => phi alpha (pa k + s * da k) (pbb k + s * db k) * phi alpha (pa k + s * da k) (pbb k + s * db k))))
      (1 / 2))].
    2:{ apply (derivable_pt_lim_plus (fun s =>
           rsum nz (fun i => (1 - s) * sub_z P sigma xc xb i * ((1 - s) * sub_z P sigma xc xb i)) +
           rsum nl (fun i => (1 - s) * sub_l P sigma xc xb i * ((1 - s) * sub_l P sigma xc xb i)))
         (fun s => rsum nv (fun k => phi alpha (pa k + s * da k) (pbb k + s * db k) * phi alpha (pa k + s * da k) (pbb k + s * db k)))).
        - apply (derivable_pt_lim_plus (fun s =>
           rsum nz (fun i => (1 - s) * sub_z P sigma xc xb i * ((1 - s) * sub_z P sigma xc xb i)))
           (fun s => rsum nl (fun i => (1 - s) * sub_l P sigma xc xb i * ((1 - s) * sub_l P sigma xc xb i)))).
          + apply (rsum_deriv nz (fun i s => (1 - s) * sub_z P sigma xc xb i * ((1 - s) * sub_z P sigma xc xb i))).
            intros i Hi. apply shrink_deriv.
          + apply (rsum_deriv nl (fun i s => (1 - s) * sub_l P sigma xc xb i * ((1 - s) * sub_l P sigma xc xb i))).
            intros i Hi. apply shrink_deriv.
        - apply (rsum_deriv nv (fun k s => phi alpha (pa k + s * da k) (pbb k + s * db k) * phi alpha (pa k + s * da k) (pbb k + s * db k))).
          intros k Hk. apply half_sq_deriv; [exact Ha|]. apply (RP k Hk). }
    cbv beta. rewrite !rsum_opp, !rsum_scal.
    rewrite (rsum_ext nv (fun k => phi alpha (pa k) (pbb k) *
      (fst (gradR alpha (pa k) (pbb k)) * da k + snd (gradR alpha (pa k) (pbb k)) * db k))
      (fun k => - (sub_v alpha sigma xc xb k * sub_v alpha sigma xc xb k))).
    - rewrite rsum_opp. unfold merit_of, sumsq. lra.
    - intros k Hk. rewrite pair_dir by exact Hk. unfold sub_v. ring.
  Qed.

  Lemma merit_nonneg : 0 <= cm.
  Proof. unfold merit_of. assert (K := sumsq_nonneg P (sub_z P sigma xc xb) (sub_l P sigma xc xb) (sub_v alpha sigma xc xb)). lra. Qed.

  Lemma merit_zero : cm = 0 -> forall s, m s = 0.
  Proof.
    intros E s.
    assert (K1 : 0 <= rsum nz (fun i => sub_z P sigma xc xb i * sub_z P sigma xc xb i)) by (apply rsum_nonneg; intros; apply Rle_0_sqr).
    assert (K2 : 0 <= rsum nl (fun i => sub_l P sigma xc xb i * sub_l P sigma xc xb i)) by (apply rsum_nonneg; intros; apply Rle_0_sqr).
    assert (K3 : 0 <= rsum nv (fun i => sub_v alpha sigma xc xb i * sub_v alpha sigma xc xb i)) by (apply rsum_nonneg; intros; apply Rle_0_sqr).
    unfold merit_of, sumsq in E.
    assert (Z1 := rsum_sq_zero nz (sub_z P sigma xc xb) ltac:(lra)).
    assert (Z2 := rsum_sq_zero nl (sub_l P sigma xc xb) ltac:(lra)).
    assert (Z3 := rsum_sq_zero nv (sub_v alpha sigma xc xb) ltac:(lra)).
    destruct (newton_kernel P sigma gam mus (rg (v_z dx)) (rg (v_l dx)) (rg (v_v dx)) Cv Hs) as (D1 & D2 & D3).
    - intros k Hk. destruct (C33_weights alpha sigma xc xb nv Ha Hs) as (_ & _ & _ & W).
      destruct (W k Hk) as (W1 & W2 & _). auto.
    - destruct NS as (N1 & N2 & N3). split; [|split]; intros k Hk.
      + rewrite N1, Z1 by exact Hk. ring.
      + rewrite N2, Z2 by exact Hk. ring.
      + rewrite N3, Z3 by exact Hk. ring.
    - rewrite line_merit.
      rewrite !(rsum_zero); [ring| | |]; intros k Hk.
      + assert (X : times nz (cA P) (rg (v_z dx)) k = 0).
        { unfold times. apply rsum_zero. intros j Hj. rewrite D1 by exact Hj. ring. }
        rewrite X, D3 by exact Hk.
        replace (pa k + s * (- 0 + sigma * 0)) with (pa k) by ring. replace (pbb k + s * 0) with (pbb k) by ring.
        change (sub_v alpha sigma xc xb k * sub_v alpha sigma xc xb k = 0). rewrite Z3 by exact Hk. ring.
      + rewrite Z2 by exact Hk. ring.
      + rewrite Z1 by exact Hk. ring.
  Qed.

  Lemma sufficient_decrease eta : eta < 1 -> regular_pairs P sigma xc xb ->
    exists t0, 0 < t0 /\ forall s, 0 < s <= t0 -> m s <= cm - 2 * s * eta * cm.
  Proof.
    intros He RP. destruct (Req_dec cm 0) as [Z|NZ].
    { exists 1. split; [lra|]. intros s _. rewrite (merit_zero Z), Z. lra. }
    assert (PM := merit_nonneg).
    assert (D := merit_deriv RP (2 * (1 - eta) * cm)).
    destruct D as [del Hd]; [apply Rmult_lt_0_compat; lra|].
    exists (del / 2). assert (PD := cond_pos del). split; [lra|]. intros s [S1 S2].
    specialize (Hd s ltac:(lra)). rewrite (Rabs_pos_eq s) in Hd by lra. specialize (Hd ltac:(lra)).
    rewrite Rplus_0_l in Hd. cbv beta in Hd. rewrite merit_start in Hd. apply Rabs_def2 in Hd. destruct Hd as [Hd _].
    assert (E : (m s - cm) / s < - (2 * eta * cm)) by lra.
    apply (Rmult_lt_compat_r s) in E; [|lra].
    replace ((m s - cm) / s * s) with (m s - cm) in E by (field; lra). lra.
  Qed.
End Line.

Section Run.
  Context {LA : LinAlg R} {P : QP} {o : params R} {x : var R} {el : R} {r : solve_result R}
          {D : Type} {DI : DataI R D} {d : D} {pinit : R -> R -> var R -> var R -> res bool}
          {pst : R -> R -> var R -> var R -> rsd R -> var R} {stale : rsd R} {w : ws R}.
  Hypothesis RC : rcall LA P o x el r D DI d pinit pst stale w.
  Notation nz := (n_z P). Notation nl := (n_l P). Notation nv := (n_v P).
  Notation vok := (var_ok nz nl nv).
  Notation pb := (prob_of Rops DI d nz nl nv pinit pst o).
  Let EX := rc_ex _ _ _ _ _ _ _ _ _ _ _ _ _ RC.
  Let CD := rc_cd _ _ _ _ _ _ _ _ _ _ _ _ _ RC.

  Lemma inner_entries y yb : vok y -> vok yb ->
    rsd_ok nz nl nv (pb_inner pb y yb) /\
    (forall i, (i < nz)%nat -> rg (r_z (pb_inner pb y yb)) i = sub_z P (p_sigma0 o) y yb i) /\
    (forall i, (i < nl)%nat -> rg (r_l (pb_inner pb y yb)) i = sub_l P (p_sigma0 o) y yb i) /\
    (forall i, (i < nv)%nat -> rg (r_v (pb_inner pb y yb)) i = sub_v (p_alpha o) (p_sigma0 o) y yb i) /\
    rsd_merit Rops (pb_inner pb y yb) = merit_of P (p_alpha o) (p_sigma0 o) y yb.
  Proof.
    intros V VB. split; [apply (cl_inner Rops _ _ _ _ _ _ _ _ _ _ _ _ _ CD); assumption|].
    destruct (inner_R DI d P EX (p_alpha o) (p_sigma0 o) y yb V VB) as (rr & E & L1 & L2 & L3 & E1 & E2 & E3 & _).
    assert (B : rsd_ok nz nl nv (mkRsd (vconst nz (o_zero Rops)) (vconst nl (o_zero Rops)) (vconst nv (o_zero Rops))
             (o_zero Rops) (o_zero Rops) (o_zero Rops))).
    { unfold rsd_ok. cbn [r_z r_l r_v]. rewrite !vconst_len. auto. }
    destruct (inner_ok Rops DI d nz nl nv (pinit:=pinit) (pst:=pst) (cd_data _ _ _ _ _ _ _ _ _ _ _ _ _ _ CD) o y yb _ V VB B) as [K _].
    unfold FV, FR in K. unfold at_point, blank_residual in E. rewrite E in K. injection K as ->.
    cbn [fr_r] in *. split; [exact E1|]. split; [exact E2|]. split; [exact E3|].
    pose proof (sub_merit_R DI d P EX (p_alpha o) (p_sigma0 o) y yb V VB) as M.
    rewrite (br_merit Rops _ _ _ _ _ _ _ _ _ _ _ _ _ CD y yb V VB) in M. injection M as M. exact M.
  Qed.

  Lemma axpy_line s y z : @vm P y -> @vm P z -> pb_axpy pb s y z = on_line P z y s.
  Proof.
    intros Vy Vz. destruct (vm_axpy RC s y z Vy Vz) as [(V1 & V2 & V3 & V4) M].
    destruct Vz as [(A1 & A2 & A3 & A4) _]. destruct Vy as [(B1 & B2 & B3 & B4) _].
    assert (Ez : v_z (pb_axpy pb s y z) = v_z (on_line P z y s)).
    { apply (vec_ext Rops); [rewrite V1; unfold on_line; cbn [v_z]; rewrite tab_length; reflexivity|].
      intros i Hi. rewrite V1 in Hi. unfold on_line. cbn [v_z]. rewrite (vget_tab Rops) by exact Hi.
      cbn [pb_axpy prob_of]. unfold paxpy, vaxpy. cbn [v_z]. rewrite A1, (vget_tab Rops) by exact Hi. reflexivity. }
    assert (El : v_l (pb_axpy pb s y z) = v_l (on_line P z y s)).
    { apply (vec_ext Rops); [rewrite V2; unfold on_line; cbn [v_l]; rewrite tab_length; reflexivity|].
      intros i Hi. rewrite V2 in Hi. unfold on_line. cbn [v_l]. rewrite (vget_tab Rops) by exact Hi.
      cbn [pb_axpy prob_of]. unfold paxpy, vaxpy. cbn [v_l]. rewrite A2, (vget_tab Rops) by exact Hi. reflexivity. }
    assert (Ev : v_v (pb_axpy pb s y z) = v_v (on_line P z y s)).
    { apply (vec_ext Rops); [rewrite V3; unfold on_line; cbn [v_v]; rewrite tab_length; reflexivity|].
      intros i Hi. rewrite V3 in Hi. unfold on_line. cbn [v_v]. rewrite (vget_tab Rops) by exact Hi.
      cbn [pb_axpy prob_of]. unfold paxpy, vaxpy. cbn [v_v]. rewrite A3, (vget_tab Rops) by exact Hi. reflexivity. }
    assert (Ey : v_y (pb_axpy pb s y z) = v_y (on_line P z y s)).
    { apply (vec_ext Rops); [rewrite V4; unfold on_line; cbn [v_y]; rewrite tab_length; reflexivity|].
      intros k Hk. rewrite V4 in Hk. rewrite M, Ez by exact Hk. unfold on_line. cbn [v_y v_z].
      rewrite (vget_tab Rops) by exact Hk. reflexivity. }
    destruct (pb_axpy pb s y z) as [q1 q2 q3 q4]. cbn [v_z v_l v_v v_y] in *. unfold on_line in *. cbn [v_z v_l v_v v_y] in *.
    congruence.
  Qed.

  Lemma neg_entry (u : vec R) n i : length u = n -> (i < n)%nat -> rg (vscale Rops (o_mone Rops) u) i = - rg u i.
  Proof.
    intros L Hi. unfold vscale. rewrite L, (vget_tab Rops) by exact Hi. cbn. lra.
  Qed.

  Lemma newton_direction y yb dx : LALaws LA -> convex P -> 0 < p_alpha o < 1 -> 0 < p_sigma0 o ->
    vok y -> vok yb -> pb_newton pb y yb (rsd_neg Rops (pb_inner pb y yb)) = Ok dx ->
    newton_system P (p_sigma0 o) (rg (w_gamma Rops (p_alpha o) (p_sigma0 o) y yb nv))
      (rg (w_mus Rops (p_alpha o) (p_sigma0 o) y yb nv)) (rg (v_z dx)) (rg (v_l dx)) (rg (v_v dx))
      (fun i => - sub_z P (p_sigma0 o) y yb i) (fun k => - sub_l P (p_sigma0 o) y yb k)
      (fun k => - sub_v (p_alpha o) (p_sigma0 o) y yb k).
  Proof.
    intros LL Cv Ha Hs V VB E.
    destruct (inner_entries y yb V VB) as (RO & E1 & E2 & E3 & _).
    destruct (lin_newton LA P D DI d pinit pst LL Cv EX (rc_lin _ _ _ _ _ _ _ _ _ _ _ _ _ RC)
                (p_alpha o) (p_sigma0 o) y yb Ha Hs) as [I1 I2].
    cbn [pb_newton prob_of] in E. unfold pnewton in E. rewrite I1 in E. injection E as <-.
    destruct (I2 _ (neg_ok Rops nz nl nv _ RO)) as (N1 & N2 & N3).
    destruct RO as (L1 & L2 & L3).
    split; [|split]; intros k Hk.
    - rewrite N1 by exact Hk. unfold rsd_neg. cbn [r_z]. rewrite (neg_entry _ nz) by assumption. rewrite E1 by exact Hk. reflexivity.
    - rewrite N2 by exact Hk. unfold rsd_neg. cbn [r_l]. rewrite (neg_entry _ nl) by assumption. rewrite E2 by exact Hk. reflexivity.
    - rewrite N3 by exact Hk. unfold rsd_neg. cbn [r_v]. rewrite (neg_entry _ nv) by assumption. rewrite E3 by exact Hk. reflexivity.
  Qed.
End Run.

Lemma beta_pow_pos (o : params R) : 0 < p_beta o -> forall j t, 0 < t -> 0 < beta_pow Rops o j t.
Proof.
  intros Hb. induction j as [|j IH]; intros t Ht; cbn [beta_pow]; [exact Ht|].
  apply IH. apply Rmult_lt_0_compat; assumption.
Qed.
Lemma beta_pow_is (o : params R) : forall j t, beta_pow Rops o j t = t * p_beta o ^ j.
Proof.
  induction j as [|j IH]; intro t; cbn [beta_pow pow]; [ring|]. rewrite IH. cbn [o_mul Rops]. ring.
Qed.

(* ---------------------------------------------------------------- C50 *)
(* Every Newton step of a run on a convex problem starts at a point xc, for the subproblem
   centred at xb, and goes along dx.  If the pairs at xc are regular, the merit function has
   derivative -2*merit along dx, so some threshold t0 > 0 passes the sufficient-decrease test
   with every shorter step, and every step length beta^i the line search rejected was longer
   than t0: the search fails only when max_linesearch_iters is exhausted above t0. *)
Theorem C50_newton_descent : forall LA P o x el r, LALaws LA ->
  solves LA P o x el r -> convex P ->
  forall pre xc dx cm m0 t j acc x' post,
  sr_trace r = pre ++ GStep xc dx cm m0 t j acc x' :: post ->
  let xb := c_center (after (start_at P x) pre) in
  let m s := merit_of P (p_alpha o) (p_sigma0 o) (on_line P xc dx s) xb in
  xc = c_x (after (start_at P x) pre) /\ x' = on_line P xc dx t /\
  cm = merit_of P (p_alpha o) (p_sigma0 o) xc xb /\ m 0 = cm /\
  (regular_pairs P (p_sigma0 o) xc xb ->
   derivable_pt_lim m 0 (- (2 * cm)) /\
   exists t0, 0 < t0 /\
     (forall s, 0 < s <= t0 -> m s <= cm - 2 * s * p_eta o * cm) /\
     (forall i, (i < j)%nat -> t0 < p_beta o ^ i) /\
     (acc = false -> t0 < p_beta o ^ (Z.to_nat (p_max_ls o) - 1))).
Proof.
  intros LA P o x el r LL Sv Cv pre xc dx cm m0 t j acc x' post ET.
  assert (Ha := solve_alpha _ _ _ _ _ _ Sv). assert (Hs := solve_sigma _ _ _ _ _ _ Sv).
  assert (AD := solve_admissible _ _ _ _ _ _ Sv).
  assert (He : p_eta o < 1).
  { pose proof (between_R _ _ _ (ad_eta _ _ AD)) as K. revert K. cbn. unfold Rdec; cbn. lra. }
  assert (Hb : 0 < p_beta o).
  { pose proof (between_R _ _ _ (ad_beta _ _ AD)) as K. revert K. cbn. unfold Rdec; cbn. lra. }
  assert (Hl := ad_ls _ _ AD).
  destruct (solves_rcall _ _ _ _ _ _ Sv) as (D & DI & d & pinit & pst & stale & w & RC).
  pose proof (event_vm RC _ _ _ ET) as K. rewrite (start_is RC) in K. cbn [ev_ok] in K.
  destruct K as (-> & V1 & V2 & V3 & V4 & ms & m' & S1 & S2 & S3 & S4 & S5 & S6 & S7 & S8 & S9 & S10 & S11).
  set (c := after (start_at P x) pre) in *. cbv zeta. set (xb := c_center c) in *. set (xc := c_x c) in *.
  destruct (inner_entries RC xc xb (proj1 V1) (proj1 V2)) as (_ & _ & _ & _ & EM).
  assert (NS := newton_direction RC xc xb dx LL Cv Ha Hs (proj1 V1) (proj1 V2) S1).
  rewrite EM in S2.
  split; [reflexivity|]. split; [rewrite S9; apply (axpy_line RC); assumption|].
  split; [exact S2|]. 
  split. { rewrite S2. apply merit_start; [exact (proj2 V1)|exact NS]. }
  intro RP. rewrite S2. split; [apply merit_deriv; [exact Ha|exact (proj2 V1)|exact NS|exact RP]|].
  destruct (sufficient_decrease P (p_alpha o) (p_sigma0 o) xc xb dx Ha Hs Cv (proj2 V1) NS (p_eta o) He RP)
    as (t0 & T0 & T1).
  assert (M0 : cm <= m0).
  { rewrite S4. destruct (p_nonmonotone o); [|lra]. rewrite S3. unfold InsertMerit.
    change (firstn 5 (cm :: ?l)) with (cm :: firstn 4 l). cbn [MaxMerit].
    apply Rleb_true. apply (max_element_ge Rops ord_R).
    - apply Forall_forall. intros; exact I.
    - left; reflexivity. }
  assert (REJ : forall i, (i < j)%nat -> t0 < p_beta o ^ i).
  { intros i Hi. specialize (S11 i Hi). unfold armijo in S11.
    rewrite (axpy_line RC) in S11 by assumption.
    destruct (inner_entries RC (on_line P xc dx (beta_pow Rops o i (o_one Rops))) xb) as (_ & _ & _ & _ & EM').
    { rewrite <- (axpy_line RC) by assumption. apply (vm_axpy RC); assumption. }
    { exact (proj1 V2). }
    rewrite EM' in S11. 
    change (o_one Rops) with 1 in S11. rewrite beta_pow_is, Rmult_1_l in S11. 
    assert (PB : 0 < p_beta o ^ i) by (apply pow_lt; exact Hb).
    set (s := p_beta o ^ i) in *.
    apply Rleb_false in S11. cbn [o_sub o_mul Rops] in S11.
    replace (o_two Rops) with 2 in S11 by (unfold o_two; cbn; lra).
    apply Rnot_le_lt. intro L. specialize (T1 s (conj PB L)). rewrite <- S2 in T1. lra. }
  exists t0. split; [exact T0|]. split; [exact T1|]. split; [exact REJ|].
  intros ->. apply REJ. lia.
Qed.
Print Assumptions C50_newton_descent.
