(* The square of the penalised Fischer-Burmeister function has a quadratic upper bound, with the
   derivative the code uses.  Pure mathematics over the reals (PropsWeights.v: [gradR] is PFBGradient). *)
From Verif Require Export ProxSpec PropsDescent.
Local Open Scope R_scope.

(* ---------- specification: the constants ---------- *)
(* for pairs with entries at most B and increments of length at most d *)
Definition fb_lip (B d : R) : R := 5 + 2 * B + 2 * d.
Definition fb_mix (B d : R) : R := (3 + B) + B * (1 + B) + (6 + B) * (B + d).
Definition fb_curv (B d : R) : R := 2 * fb_mix B d + (2 * (2 + B) + fb_lip B d) * (2 * (2 + B) + fb_lip B d).

(* ---------- proofs ---------- *)
Section Pair.
  Variables (al B dm a b p q : R).
  Hypothesis Ha : 0 < al < 1.
  Hypothesis HB : 0 <= B.
  Hypothesis Hd : 0 <= dm.
  Hypothesis Ba : a <= B.
  Hypothesis Bb : b <= B.
  Notation e := (sqrt (p * p + q * q)).
  Notation r := (sqrt (a * a + b * b)).
  Hypothesis He : e <= dm.

  Lemma sq_len u v : sqrt (u * u + v * v) * sqrt (u * u + v * v) = u * u + v * v.
  Proof. apply sqrt_sqrt. assert (0 <= u * u) by apply Rle_0_sqr. assert (0 <= v * v) by apply Rle_0_sqr. lra. Qed.
  Lemma len_fst u v : Rabs u <= sqrt (u * u + v * v).
  Proof. apply abs_le_sq; [apply sqrt_pos|]. rewrite sq_len. assert (0 <= v * v) by apply Rle_0_sqr. lra. Qed.
  Lemma len_snd u v : Rabs v <= sqrt (u * u + v * v).
  Proof. apply abs_le_sq; [apply sqrt_pos|]. rewrite sq_len. assert (0 <= u * u) by apply Rle_0_sqr. lra. Qed.
  Lemma dot_len u v u' v' : Rabs (u * u' + v * v') <= sqrt (u * u + v * v) * sqrt (u' * u' + v' * v').
  Proof.
    apply abs_le_sq; [apply Rmult_le_pos; apply sqrt_pos|].
    replace (sqrt (u * u + v * v) * sqrt (u' * u' + v' * v') * (sqrt (u * u + v * v) * sqrt (u' * u' + v' * v'))) with
      ((sqrt (u * u + v * v) * sqrt (u * u + v * v)) * (sqrt (u' * u' + v' * v') * sqrt (u' * u' + v' * v'))) by ring.
    rewrite !sq_len. assert (K : 0 <= (u * v' - v * u') * (u * v' - v * u')) by apply Rle_0_sqr. lra.
  Qed.
  Lemma len_triangle u v u' v' : sqrt ((u + u') * (u + u') + (v + v') * (v + v')) <= sqrt (u * u + v * v) + sqrt (u' * u' + v' * v').
  Proof.
    apply Rsqr_incr_0_var.
    - unfold Rsqr. rewrite sq_len. assert (K := dot_len u v u' v'). assert (K2 := Rle_abs (u * u' + v * v')).
      assert (K3 := sq_len u v). assert (K4 := sq_len u' v').
      set (s1 := sqrt (u * u + v * v)) in *. set (s2 := sqrt (u' * u' + v' * v')) in *. nra.
    - assert (K1 := sqrt_pos (u * u + v * v)). assert (K2 := sqrt_pos (u' * u' + v' * v')). lra.
  Qed.

  (* the remainder of the norm *)
  Notation N := (sqrt ((a + p) * (a + p) + (b + q) * (b + q)) - r - (a * p + b * q) / r).
  Lemma norm_rem : 0 < r -> 0 <= N /\ N * r <= e * e / 2 /\ N <= 2 * e.
  Proof.
    intro Hr. set (s := sqrt ((a + p) * (a + p) + (b + q) * (b + q))).
    assert (Ps : 0 <= s) by apply sqrt_pos. assert (Pe : 0 <= e) by apply sqrt_pos.
    assert (Es : s * s = r * r + 2 * (a * p + b * q) + e * e).
    { unfold s. rewrite !sq_len. ring. }
    assert (T : s <= r + e) by apply len_triangle.
    set (dt := a * p + b * q) in *.
    assert (Q : (s - r - dt / r) * r = s * r - r * r - dt) by (field; lra).
    assert (L1 : r * r + dt <= s * r).
    { (* (r^2+dt)^2 <= s^2 r^2 *)
      assert (C := dot_len a b p q). fold dt in C. set (rr := r) in *. set (ee := e) in *.
      assert (C2 : dt * dt <= rr * ee * (rr * ee)).
      { rewrite <- (Rabs_pos_eq (dt * dt)) by apply Rle_0_sqr. rewrite Rabs_mult. apply Rmult_le_compat; auto using Rabs_pos. }
      assert (K : (rr * rr + dt) * (rr * rr + dt) <= (s * rr) * (s * rr)).
      { replace (s * rr * (s * rr)) with (s * s * (rr * rr)) by ring. rewrite Es. nra. }
      apply Rsqr_incr_0_var; [exact K|]. apply Rmult_le_pos; lra. }
    split; [|split].
    - apply Rmult_le_reg_r with r; [exact Hr|]. rewrite Q. lra.
    - rewrite Q. assert (K : 0 <= (s - r) * (s - r)) by apply Rle_0_sqr. lra.
    - assert (C := dot_len a b p q). fold dt in C. assert (C2 := Rle_abs (- dt)). rewrite Rabs_Ropp in C2.
      assert (D : - e <= dt / r).
      { apply Rmult_le_reg_r with r; [exact Hr|]. replace (dt / r * r) with dt by (field; lra). lra. }
      lra.
  Qed.
  Lemma fb_abs : Rabs (a + b - r) <= 3 * r.
  Proof.
    assert (K1 := len_fst a b). assert (K2 := len_snd a b). assert (Pr := sqrt_pos (a * a + b * b)).
    set (rr := r) in *. unfold Rabs in *. destruct (Rcase_abs a), (Rcase_abs b), (Rcase_abs (a + b - rr)); lra.
  Qed.
  Notation Pi u v := (Rmax 0 u * Rmax 0 v).
  Lemma pos_le_len : Rmax 0 a <= r /\ Rmax 0 b <= r.
  Proof.
    assert (K1 := len_fst a b). assert (K2 := len_snd a b). assert (Pr := sqrt_pos (a * a + b * b)).
    assert (K3 := Rle_abs a). assert (K4 := Rle_abs b). split; apply Rmax_lub; lra.
  Qed.
  Lemma phi_abs : Rabs (phi al a b) <= (3 + B) * r.
  Proof.
    unfold phi. destruct pos_le_len as [P1 P2]. assert (Pr := sqrt_pos (a * a + b * b)).
    assert (Q1 := Rmax_l 0 a). assert (Q2 := Rmax_l 0 b). assert (Q3 : Rmax 0 b <= B) by (apply Rmax_lub; assumption).
    assert (F := fb_abs). set (rr := r) in *.
    eapply Rle_trans; [apply Rabs_triang|]. rewrite Rmult_plus_distr_r. apply Rplus_le_compat.
    - rewrite Rabs_mult, (Rabs_pos_eq al) by lra.
      assert (al * Rabs (a + b - rr) <= 1 * Rabs (a + b - rr)) by (apply Rmult_le_compat_r; [apply Rabs_pos|lra]). lra.
    - assert (Z : 0 <= Rmax 0 a * Rmax 0 b) by (apply Rmult_le_pos; assumption).
      rewrite Rmult_assoc, Rabs_pos_eq by (apply Rmult_le_pos; lra).
      assert ((1 - al) * (Rmax 0 a * Rmax 0 b) <= 1 * (Rmax 0 a * Rmax 0 b)) by (apply Rmult_le_compat_r; lra).
      assert (Rmax 0 a * Rmax 0 b <= rr * B) by (apply Rmult_le_compat; assumption). lra.
  Qed.
  Lemma phi_pos_le : 0 < a -> 0 < b -> 0 <= phi al a b <= a * (1 + B) /\ phi al a b <= b * (1 + B).
  Proof.
    intros Pa Pb. unfold phi. rewrite (Rmax_right 0 a), (Rmax_right 0 b) by lra.
    assert (K1 := len_fst a b). assert (K2 := len_snd a b). rewrite Rabs_pos_eq in K1, K2 by lra.
    assert (S2 : r <= a + b).
    { rewrite <- (sqrt_square (a + b)) by lra. apply sqrt_le_1_alt. nra. }
    set (rr := r) in *.
    assert (M1 : al * (a + b - rr) <= 1 * (a + b - rr)) by (apply Rmult_le_compat_r; lra).
    assert (M0 : 0 <= al * (a + b - rr)) by (apply Rmult_le_pos; lra).
    assert (Z : 0 <= a * b) by (apply Rmult_le_pos; lra).
    assert (M2 : (1 - al) * (a * b) <= 1 * (a * b)) by (apply Rmult_le_compat_r; lra).
    assert (M3 : 0 <= (1 - al) * (a * b)) by (apply Rmult_le_pos; lra).
    assert (a * b <= a * B) by (apply Rmult_le_compat_l; lra). assert (a * b <= B * b) by (apply Rmult_le_compat_r; lra).
    rewrite Rmult_assoc. repeat split; lra.
  Qed.

  Lemma inc_abs : Rabs p <= e /\ Rabs q <= e /\ 0 <= e.
  Proof. split; [apply len_fst|]. split; [apply len_snd|apply sqrt_pos]. Qed.

  (* the product of the positive parts *)
  Notation grad_pi := (if Rltb 0 a && Rltb 0 b then b * p + a * q else 0).
  Notation rpi := (Pi (a + p) (b + q) - Pi a b - grad_pi).
  Lemma pos_inc u t : Rmax 0 (u + t) <= Rmax 0 u + Rabs t.
  Proof.
    assert (K := Rle_abs t). assert (K2 := Rabs_pos t).
    assert (Q1 := Rmax_l 0 u). assert (Q2 := Rmax_r 0 u). apply Rmax_lub; lra.
  Qed.
  Lemma new_pos_le : Rmax 0 (a + p) <= B + dm /\ Rmax 0 (b + q) <= B + dm.
  Proof.
    destruct inc_abs as (I1 & I2 & I3). assert (K1 := pos_inc a p). assert (K2 := pos_inc b q).
    assert (Q1 : Rmax 0 a <= B) by (apply Rmax_lub; assumption). assert (Q2 : Rmax 0 b <= B) by (apply Rmax_lub; assumption). lra.
  Qed.
  Lemma pi_rem : Rabs rpi <= (B + 2 * dm) * e /\
    Rabs (phi al a b * rpi) <= (B * (1 + B) + (6 + B) * (B + dm)) * (e * e).
  Proof.
    destruct inc_abs as (I1 & I2 & I3). destruct new_pos_le as [W1 W2]. set (ee := e) in *.
    assert (PE : 0 <= ee * ee) by apply Rle_0_sqr.
    assert (PQ : Rabs (p * q) <= ee * ee) by (rewrite Rabs_mult; apply Rmult_le_compat; auto using Rabs_pos).
    destruct (Rltb 0 a && Rltb 0 b) eqn:CS.
    - apply andb_prop in CS. destruct CS as [C1 C2]. apply Rltb_true in C1, C2.
      destruct (phi_pos_le C1 C2) as ([F0 F1] & F2). set (f := phi al a b) in *.
      rewrite (Rmax_right 0 a), (Rmax_right 0 b) by lra.
      set (br := Rmax 0 (a + p) * Rmax 0 (b + q) - (a + p) * (b + q)).
      replace (Rmax 0 (a + p) * Rmax 0 (b + q) - a * b - (b * p + a * q)) with (p * q + br) by (unfold br; ring).
      assert (FB : f <= B * (1 + B)) by (eapply Rle_trans; [exact F1|]; apply Rmult_le_compat_r; lra).
      assert (X : Rabs br <= (B + dm) * ee /\ f * Rabs br <= (1 + B) * (B + dm) * (ee * ee)).
      { assert (Z : 0 <= (B + dm) * ee) by (apply Rmult_le_pos; lra).
        assert (Z2 : 0 <= (1 + B) * (B + dm) * (ee * ee)) by (apply Rmult_le_pos; [apply Rmult_le_pos; lra|lra]).
        destruct (Rle_dec 0 (a + p)) as [G1|G1].
        - destruct (Rle_dec 0 (b + q)) as [G2|G2].
          + unfold br. rewrite !Rmax_right by assumption. replace (_ - _) with 0 by ring. rewrite Rabs_R0, Rmult_0_r. split; assumption.
          + unfold br. rewrite (Rmax_left 0 (b + q)) by lra. rewrite Rmult_0_r, Rminus_0_l, Rabs_Ropp, Rabs_mult.
            rewrite (Rmax_right 0 (a + p)) in W1 by assumption. rewrite (Rabs_pos_eq (a + p)) by assumption.
            assert (H1 : Rabs (b + q) <= ee).
            { rewrite Rabs_left by lra. assert (K := Rle_abs (- q)). rewrite Rabs_Ropp in K. lra. }
            assert (H2 : b <= ee) by (assert (K := Rle_abs (- q)); rewrite Rabs_Ropp in K; lra).
            assert (H3 : (a + p) * Rabs (b + q) <= (B + dm) * ee) by (apply Rmult_le_compat; auto using Rabs_pos).
            split; [exact H3|].
            assert (H4 : f <= ee * (1 + B)) by (eapply Rle_trans; [exact F2|]; apply Rmult_le_compat_r; lra).
            assert (f * ((a + p) * Rabs (b + q)) <= (ee * (1 + B)) * ((B + dm) * ee)).
            { apply Rmult_le_compat; [lra|apply Rmult_le_pos; [lra|apply Rabs_pos]|exact H4|exact H3]. }
            lra.
        - unfold br. rewrite (Rmax_left 0 (a + p)) by lra. rewrite Rmult_0_l, Rminus_0_l, Rabs_Ropp, Rabs_mult.
          assert (H1 : Rabs (a + p) <= ee).
          { rewrite Rabs_left by lra. assert (K := Rle_abs (- p)). rewrite Rabs_Ropp in K. lra. }
          assert (H2 : a <= ee) by (assert (K := Rle_abs (- p)); rewrite Rabs_Ropp in K; lra).
          assert (H5 : Rabs (b + q) <= B + dm).
          { eapply Rle_trans; [apply Rabs_triang|]. rewrite (Rabs_pos_eq b) by lra. lra. }
          assert (H3 : Rabs (a + p) * Rabs (b + q) <= ee * (B + dm)) by (apply Rmult_le_compat; auto using Rabs_pos).
          split; [lra|].
          assert (H4 : f <= ee * (1 + B)) by (eapply Rle_trans; [exact F1|]; apply Rmult_le_compat_r; lra).
          assert (f * (Rabs (a + p) * Rabs (b + q)) <= (ee * (1 + B)) * (ee * (B + dm))).
          { apply Rmult_le_compat; [lra|apply Rmult_le_pos; apply Rabs_pos|exact H4|exact H3]. }
          lra. }
      destruct X as [X1 X2].
      assert (T := Rabs_triang (p * q) br).
      split.
      + assert (ee * ee <= dm * ee) by (apply Rmult_le_compat_r; lra). lra.
      + rewrite Rabs_mult, (Rabs_pos_eq f) by lra.
        assert (f * Rabs (p * q + br) <= f * (Rabs (p * q) + Rabs br)) by (apply Rmult_le_compat_l; lra).
        assert (f * Rabs (p * q) <= B * (1 + B) * (ee * ee)) by (apply Rmult_le_compat; auto using Rabs_pos).
        assert (0 <= 5 * (B + dm) * (ee * ee)) by (apply Rmult_le_pos; [lra|assumption]).
        lra.
    - rewrite Rminus_0_r.
      assert (C : a <= 0 \/ b <= 0).
      { apply andb_false_iff in CS. destruct CS as [CS|CS]; apply Rltb_false in CS; auto. }
      assert (ZP : Rmax 0 a * Rmax 0 b = 0).
      { destruct C as [C|C]; rewrite (Rmax_left 0 _ C); ring. }
      assert (PH : phi al a b = al * (a + b - r)).
      { unfold phi. rewrite Rmult_assoc, ZP. ring. }
      rewrite ZP, Rminus_0_r. set (n := Rmax 0 (a + p) * Rmax 0 (b + q)).
      assert (Q1 := Rmax_l 0 (a + p)). assert (Q2 := Rmax_l 0 (b + q)).
      assert (PN : 0 <= n) by (apply Rmult_le_pos; assumption). rewrite (Rabs_mult (phi al a b)), (Rabs_pos_eq n) by exact PN.
      assert (N1 : n <= (B + dm) * ee).
      { destruct C as [C|C].
        - assert (K := pos_inc a p). rewrite (Rmax_left 0 a C) in K. 
          assert (n <= ee * (B + dm)) by (apply Rmult_le_compat; lra). lra.
        - assert (K := pos_inc b q). rewrite (Rmax_left 0 b C) in K.
          assert (n <= (B + dm) * ee) by (apply Rmult_le_compat; lra). lra. }
      assert (PD : 0 <= dm * ee) by (apply Rmult_le_pos; lra).
      split; [lra|].
      assert (PZ : 0 <= B * (1 + B) * (ee * ee)) by (apply Rmult_le_pos; [apply Rmult_le_pos; lra|assumption]).
      assert (PZ2 : 0 <= B * (B + dm) * (ee * ee)) by (apply Rmult_le_pos; [apply Rmult_le_pos; lra|assumption]).
      destruct (Req_dec n 0) as [Z|Z].
      { rewrite Z, Rmult_0_r. assert (0 <= 6 * (B + dm) * (ee * ee)) by (apply Rmult_le_pos; lra). lra. }
      assert (G1 : 0 < a + p).
      { destruct (Rlt_dec 0 (a + p)) as [G|G]; [exact G|]. exfalso. apply Z. unfold n. rewrite (Rmax_left 0 (a + p)) by lra. ring. }
      assert (G2 : 0 < b + q).
      { destruct (Rlt_dec 0 (b + q)) as [G|G]; [exact G|]. exfalso. apply Z. unfold n. rewrite (Rmax_left 0 (b + q)) by lra. ring. }
      assert (K1 := Rle_abs p). assert (K2 := Rle_abs q).
      assert (F : Rabs (phi al a b) <= 6 * ee).
      { rewrite PH, Rabs_mult, (Rabs_pos_eq al) by lra.
        assert (X : Rabs (a + b - r) <= 6 * ee).
        { assert (L1 := len_fst a b). assert (L2 := len_snd a b).
          assert (UP : r <= Rabs a + Rabs b).
          { rewrite <- (sqrt_square (Rabs a + Rabs b)) by (assert (X1 := Rabs_pos a); assert (X2 := Rabs_pos b); lra).
            apply sqrt_le_1_alt. assert (X1 : Rabs a * Rabs a = a * a) by (rewrite <- Rabs_mult, Rabs_pos_eq; [reflexivity|apply Rle_0_sqr]).
            assert (X2 : Rabs b * Rabs b = b * b) by (rewrite <- Rabs_mult, Rabs_pos_eq; [reflexivity|apply Rle_0_sqr]).
            assert (0 <= Rabs a * Rabs b) by (apply Rmult_le_pos; apply Rabs_pos). lra. }
          set (rr := r) in *. unfold Rabs in L1, L2, UP |- *.
          destruct C as [C|C]; destruct (Rcase_abs a), (Rcase_abs b), (Rcase_abs (a + b - rr)); lra. }
        assert (al * Rabs (a + b - r) <= 1 * Rabs (a + b - r)) by (apply Rmult_le_compat_r; [apply Rabs_pos|lra]). lra. }
      assert (Rabs (phi al a b) * n <= 6 * ee * ((B + dm) * ee)) by (apply Rmult_le_compat; auto using Rabs_pos).
      lra.
  Qed.

  Notation g1 := (fst (gradR al a b)). Notation g2 := (snd (gradR al a b)).
  Notation rho := (phi al (a + p) (b + q) - phi al a b - (g1 * p + g2 * q)).
  Lemma grad_small : Rabs (g1 * p + g2 * q) <= 2 * (2 + B) * e.
  Proof.
    destruct inc_abs as (I1 & I2 & I3). set (ee := e) in *.
    assert (G : Rabs g1 <= 2 + B /\ Rabs g2 <= 2 + B).
    { destruct (C33_weight_pair al 1 a b Ha Rlt_0_1) as (P1 & P2 & _).
      rewrite !Rabs_pos_eq by assumption. clear P1 P2. unfold PFBGradient. cbn [o_ltb o_sqrt o_add o_mul o_sub o_div o_one o_zero Rops].
      replace (o_two Rops) with 2 by (unfold o_two; cbn; lra).
      assert (L1 := len_fst a b). assert (L2 := len_snd a b). set (rr := r) in *.
      destruct (Rltb rr (zero_tolerance Rops)) eqn:E.
      - cbn [fst snd]. assert (K := inv_sqrt2_lt_1). assert (0 < 1 / sqrt 2) by (apply Rdiv_lt_0_compat; [lra|apply sqrt_lt_R0; lra]).
        assert (al * (1 - 1 / sqrt 2) <= 1 * 1) by (apply Rmult_le_compat; lra). lra.
      - apply Rltb_false in E. assert (Z := ztol_pos). assert (Hr : 0 < rr) by lra.
        assert (R1 : -1 <= a / rr /\ -1 <= b / rr).
        { split; (apply Rmult_le_reg_r with rr; [exact Hr|]); [replace (a / rr * rr) with a by (field; lra)|replace (b / rr * rr) with b by (field; lra)].
          - assert (K := Rle_abs (- a)). rewrite Rabs_Ropp in K. lra.
          - assert (K := Rle_abs (- b)). rewrite Rabs_Ropp in K. lra. }
        assert (R2 : a / rr <= 1 /\ b / rr <= 1).
        { split; (apply Rmult_le_reg_r with rr; [exact Hr|]); [replace (a / rr * rr) with a by (field; lra)|replace (b / rr * rr) with b by (field; lra)].
          - assert (K := Rle_abs a). lra.
          - assert (K := Rle_abs b). lra. }
        assert (M1 : al * (1 - a / rr) <= 1 * 2) by (apply Rmult_le_compat; lra).
        assert (M2 : al * (1 - b / rr) <= 1 * 2) by (apply Rmult_le_compat; lra).
        destruct (Rltb 0 a && Rltb 0 b) eqn:CS; cbn [fst snd]; [|lra].
        apply andb_prop in CS. destruct CS as [C1 C2]. apply Rltb_true in C1, C2.
        assert ((1 - al) * b <= 1 * B) by (apply Rmult_le_compat; lra).
        assert ((1 - al) * a <= 1 * B) by (apply Rmult_le_compat; lra). lra. }
    destruct G as [G1 G2]. eapply Rle_trans; [apply Rabs_triang|]. rewrite !Rabs_mult.
    assert (Rabs g1 * Rabs p <= (2 + B) * ee) by (apply Rmult_le_compat; auto using Rabs_pos).
    assert (Rabs g2 * Rabs q <= (2 + B) * ee) by (apply Rmult_le_compat; auto using Rabs_pos). lra.
  Qed.

  Lemma rho_bounds : Rabs rho <= fb_lip B dm * e /\
    ((a = 0 /\ b = 0) \/ zero_tolerance Rops <= r -> Rabs (phi al a b * rho) <= fb_mix B dm * (e * e)) /\
    Rabs (phi al a b * rho) <= fb_mix B dm * (e * e) + (3 + B) * zero_tolerance Rops * (fb_lip B dm * e).
  Proof.
    destruct inc_abs as (I1 & I2 & I3). assert (GS := grad_small).
    assert (Z := ztol_pos). destruct pi_rem as [X1 X2].
    assert (PL : 0 <= fb_lip B dm) by (unfold fb_lip; lra).
    assert (Pm : 0 <= B * (1 + B) + (6 + B) * (B + dm)).
    { assert (0 <= B * (1 + B)) by (apply Rmult_le_pos; lra). assert (0 <= (6 + B) * (B + dm)) by (apply Rmult_le_pos; lra). lra. }
    assert (PMX : 0 <= fb_mix B dm) by (unfold fb_mix; lra).
    destruct (Rltb r (zero_tolerance Rops)) eqn:CS.
    - apply Rltb_true in CS.
      assert (EG : g1 * p + g2 * q = al * (1 - 1 / sqrt 2) * (p + q)).
      { unfold PFBGradient. cbn [o_ltb o_sqrt o_add o_mul o_sub o_div o_one o_zero Rops].
        replace (o_two Rops) with 2 by (unfold o_two; cbn; lra).
        assert (X : Rltb r (zero_tolerance Rops) = true) by (apply Rltb_true; exact CS). rewrite X. cbn [fst snd]. ring. }
      assert (L : Rabs rho <= fb_lip B dm * e).
      { rewrite EG. unfold phi.
        set (s := sqrt ((a + p) * (a + p) + (b + q) * (b + q))).
        assert (T1 : s <= r + e) by apply len_triangle.
        assert (T2 : r <= s + e).
        { assert (K := len_triangle (a + p) (b + q) (- p) (- q)).
          replace (a + p + - p) with a in K by ring. replace (b + q + - q) with b in K by ring.
          replace (- p * - p + - q * - q) with (p * p + q * q) in K by ring. exact K. }
        assert (PI : Rabs (Rmax 0 (a + p) * Rmax 0 (b + q) - Rmax 0 a * Rmax 0 b) <= (2 * B + dm) * e).
        { destruct new_pos_le as [W1 W2].
          assert (U1 := Rmax_l 0 (a + p)). assert (U2 := Rmax_l 0 (b + q)). assert (U3 := Rmax_l 0 a). assert (U4 := Rmax_l 0 b).
          assert (V1 : Rabs (Rmax 0 (a + p) - Rmax 0 a) <= e).
          { assert (K1 := pos_inc a p). assert (K2 := pos_inc (a + p) (- p)). replace (a + p + - p) with a in K2 by ring.
            rewrite Rabs_Ropp in K2. apply Rabs_le. lra. }
          assert (V2 : Rabs (Rmax 0 (b + q) - Rmax 0 b) <= e).
          { assert (K1 := pos_inc b q). assert (K2 := pos_inc (b + q) (- q)). replace (b + q + - q) with b in K2 by ring.
            rewrite Rabs_Ropp in K2. apply Rabs_le. lra. }
          replace (Rmax 0 (a + p) * Rmax 0 (b + q) - Rmax 0 a * Rmax 0 b) with
            ((Rmax 0 (a + p) - Rmax 0 a) * Rmax 0 (b + q) + Rmax 0 a * (Rmax 0 (b + q) - Rmax 0 b)) by ring.
          assert (Q3 : Rmax 0 a <= B) by (apply Rmax_lub; assumption).
          eapply Rle_trans; [apply Rabs_triang|]. rewrite !Rabs_mult, (Rabs_pos_eq (Rmax 0 (b + q))), (Rabs_pos_eq (Rmax 0 a)) by assumption.
          assert (Rabs (Rmax 0 (a + p) - Rmax 0 a) * Rmax 0 (b + q) <= e * (B + dm)) by (apply Rmult_le_compat; auto using Rabs_pos).
          assert (Rmax 0 a * Rabs (Rmax 0 (b + q) - Rmax 0 b) <= B * e) by (apply Rmult_le_compat; auto using Rabs_pos). lra. }
        assert (K := inv_sqrt2_lt_1). assert (K0 : 0 < 1 / sqrt 2) by (apply Rdiv_lt_0_compat; [lra|apply sqrt_lt_R0; lra]).
        set (w := 1 / sqrt 2) in *.
        set (PIn := Rmax 0 (a + p) * Rmax 0 (b + q)) in *. set (PIo := Rmax 0 a * Rmax 0 b) in *.
        replace (al * (a + p + (b + q) - s) + (1 - al) * Rmax 0 (a + p) * Rmax 0 (b + q) -
                 (al * (a + b - r) + (1 - al) * Rmax 0 a * Rmax 0 b) - al * (1 - w) * (p + q)) with
          (al * (w * (p + q) - (s - r)) + (1 - al) * (PIn - PIo)) by (unfold PIn, PIo; ring).
        eapply Rle_trans; [apply Rabs_triang|]. rewrite !Rabs_mult, (Rabs_pos_eq al), (Rabs_pos_eq (1 - al)) by lra.
        assert (Y1 : Rabs (w * (p + q) - (s - r)) <= 3 * e).
        { assert (Rabs (w * (p + q)) <= 1 * (e + e)).
          { rewrite Rabs_mult, (Rabs_pos_eq w) by lra. apply Rmult_le_compat; [lra|apply Rabs_pos|lra|].
            eapply Rle_trans; [apply Rabs_triang|]. lra. }
          assert (Rabs (s - r) <= e) by (apply Rabs_le; lra).
          assert (T := Rabs_triang (w * (p + q)) (- (s - r))). rewrite Rabs_Ropp in T. unfold Rminus at 1. lra. }
        assert (al * Rabs (w * (p + q) - (s - r)) <= 1 * (3 * e)) by (apply Rmult_le_compat; [lra|apply Rabs_pos|lra|exact Y1]).
        assert ((1 - al) * Rabs (PIn - PIo) <= 1 * ((2 * B + dm) * e)) by (apply Rmult_le_compat; [lra|apply Rabs_pos|lra|exact PI]).
        assert (0 <= dm * e) by (apply Rmult_le_pos; lra). unfold fb_lip. lra. }
      assert (PE2 : 0 <= fb_mix B dm * (e * e)) by (apply Rmult_le_pos; [exact PMX|apply Rle_0_sqr]).
      split; [exact L|]. split.
      + intros [[A0 B0]|NZ]; [|exfalso; lra].
        assert (F0 : phi al a b = 0).
        { unfold phi. rewrite A0, B0. rewrite (Rmax_left 0 0) by lra. replace (0 * 0 + 0 * 0) with 0 by ring. rewrite sqrt_0. ring. }
        rewrite F0, Rmult_0_l, Rabs_R0. exact PE2.
      + rewrite Rabs_mult. assert (F := phi_abs).
        assert (F2 : Rabs (phi al a b) <= (3 + B) * zero_tolerance Rops).
        { eapply Rle_trans; [exact F|]. apply Rmult_le_compat_l; lra. }
        assert (Rabs (phi al a b) * Rabs rho <= (3 + B) * zero_tolerance Rops * (fb_lip B dm * e))
          by (apply Rmult_le_compat; auto using Rabs_pos). lra.
    - apply Rltb_false in CS. assert (Hr : 0 < r) by lra.
      destruct (norm_rem Hr) as (N0 & N1 & N2). set (NN := N) in *.
      assert (ER : rho = - (al * NN) + (1 - al) * rpi).
      { unfold PFBGradient. cbn [o_ltb o_sqrt o_add o_mul o_sub o_div o_one o_zero Rops].
        replace (o_two Rops) with 2 by (unfold o_two; cbn; lra).
        assert (X : Rltb r (zero_tolerance Rops) = false) by (apply Rltb_false; exact CS). rewrite X.
        unfold phi, NN. destruct (Rltb 0 a && Rltb 0 b); cbn [fst snd]; field; lra. }
      assert (R1 : Rabs rho <= (2 + B + 2 * dm) * e).
      { rewrite ER. eapply Rle_trans; [apply Rabs_triang|]. rewrite Rabs_Ropp, !Rabs_mult, (Rabs_pos_eq al), (Rabs_pos_eq (1 - al)), (Rabs_pos_eq NN) by lra.
        assert (al * NN <= 1 * (2 * e)) by (apply Rmult_le_compat; lra).
        assert ((1 - al) * Rabs rpi <= 1 * ((B + 2 * dm) * e)) by (apply Rmult_le_compat; [lra|apply Rabs_pos|lra|exact X1]). lra. }
      assert (PBe : 0 <= B * e) by (apply Rmult_le_pos; lra).
      assert (R2 : Rabs (phi al a b * rho) <= fb_mix B dm * (e * e)).
      { rewrite ER. replace (phi al a b * (- (al * NN) + (1 - al) * rpi)) with
          (- (al * (phi al a b * NN)) + (1 - al) * (phi al a b * rpi)) by ring.
        eapply Rle_trans; [apply Rabs_triang|]. rewrite Rabs_Ropp, (Rabs_mult al), (Rabs_mult (1 - al)), (Rabs_pos_eq al), (Rabs_pos_eq (1 - al)) by lra.
        assert (Y : Rabs (phi al a b * NN) <= (3 + B) * (e * e)).
        { rewrite Rabs_mult, (Rabs_pos_eq NN) by lra. assert (F := phi_abs).
          assert (Rabs (phi al a b) * NN <= (3 + B) * r * NN) by (apply Rmult_le_compat_r; lra).
          assert ((3 + B) * (NN * r) <= (3 + B) * (e * e / 2)) by (apply Rmult_le_compat_l; lra).
          assert (0 <= (3 + B) * (e * e)) by (apply Rmult_le_pos; [lra|apply Rle_0_sqr]). lra. }
        assert (al * Rabs (phi al a b * NN) <= 1 * ((3 + B) * (e * e))) by (apply Rmult_le_compat; [lra|apply Rabs_pos|lra|exact Y]).
        assert ((1 - al) * Rabs (phi al a b * rpi) <= 1 * ((B * (1 + B) + (6 + B) * (B + dm)) * (e * e)))
          by (apply Rmult_le_compat; [lra|apply Rabs_pos|lra|exact X2]).
        unfold fb_mix. lra. }
      split; [unfold fb_lip; lra|]. split; [intros _; exact R2|].
      assert (0 <= (3 + B) * zero_tolerance Rops * (fb_lip B dm * e)) by (apply Rmult_le_pos; [apply Rmult_le_pos; lra|apply Rmult_le_pos; lra]). lra.
  Qed.

  (* the quadratic upper bound *)
  Lemma square_bound : let f := phi al a b in let h := phi al (a + p) (b + q) in
    h * h <= f * f + 2 * (f * (g1 * p + g2 * q)) + fb_curv B dm * (e * e) + 2 * (3 + B) * zero_tolerance Rops * fb_lip B dm * e.
  Proof.
    cbv zeta. destruct rho_bounds as (R1 & _ & R2). assert (GS := grad_small). assert (Pe : 0 <= e) by apply sqrt_pos.
    set (gd := g1 * p + g2 * q) in *. set (f := phi al a b) in *. set (h := phi al (a + p) (b + q)) in *.
    set (rr := h - f - gd) in *. assert (EH : h = f + (gd + rr)) by (unfold rr; ring).
    assert (PL : 0 <= fb_lip B dm) by (unfold fb_lip; lra).
    assert (S1 : Rabs (gd + rr) <= (2 * (2 + B) + fb_lip B dm) * e).
    { eapply Rle_trans; [apply Rabs_triang|]. lra. }
    assert (S2 : (gd + rr) * (gd + rr) <= (2 * (2 + B) + fb_lip B dm) * (2 * (2 + B) + fb_lip B dm) * (e * e)).
    { rewrite <- (Rabs_pos_eq ((gd + rr) * (gd + rr))) by apply Rle_0_sqr. rewrite Rabs_mult.
      replace ((2 * (2 + B) + fb_lip B dm) * (2 * (2 + B) + fb_lip B dm) * (e * e)) with
        (((2 * (2 + B) + fb_lip B dm) * e) * ((2 * (2 + B) + fb_lip B dm) * e)) by ring.
      apply Rmult_le_compat; auto using Rabs_pos. }
    assert (S3 := Rle_abs (f * rr)). rewrite EH.
    replace ((f + (gd + rr)) * (f + (gd + rr))) with (f * f + 2 * (f * gd) + 2 * (f * rr) + (gd + rr) * (gd + rr)) by ring.
    unfold fb_curv. lra.
  Qed.
End Pair.
