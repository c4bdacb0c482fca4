(* C31, C32: what the infeasibility test of CheckFeasibility proves (exact arithmetic). *)
From Verif Require Export PropsKKT.
Local Open Scope R_scope.

(* ---------- specification ---------- *)
(* max_i |f i| over i < n, zero when n = 0 *)
Fixpoint maxabs (n : nat) (f : nat -> R) : R :=
  match n with O => 0 | S n' => Rmax (maxabs n' f) (Rabs (f n')) end.
(* sum_i |f i| *)
Definition norm1 (n : nat) (f : nat -> R) : R := rsum n (fun i => Rabs (f i)).

Section CertSpec.
  Variable P : QP.
  Notation nz := (n_z P). Notation nl := (n_l P). Notation nv := (n_v P).
  (* h'l + b'v *)
  Definition dual_value (l v : nat -> R) : R :=
    rsum nl (fun k => ch P k * l k) + rsum nv (fun k => cb P k * v k).
  (* |G'l + A'v| <= tol*max(|l|,|v|), h'l + b'v < 0  (approximate Farkas multipliers) *)
  Definition primal_certificate (tol : R) (l v : nat -> R) : Prop :=
    (forall i, (i < nz)%nat ->
       Rabs (ttimes nl (cG P) l i + ttimes nv (cA P) v i) <= tol * Rmax (maxabs nv v) (maxabs nl l)) /\
    dual_value l v < 0.
  (* Az <= tol*|z|, |Gz| <= tol*|z|, |Hz| <= tol*|z|, f'z < 0, |z| > 1e-14 (approximate descent ray) *)
  Definition dual_certificate (tol : R) (z : nat -> R) : Prop :=
    (forall k, (k < nv)%nat -> times nz (cA P) z k <= tol * maxabs nz z) /\
    (forall k, (k < nl)%nat -> Rabs (times nz (cG P) z k) <= tol * maxabs nz z) /\
    (forall i, (i < nz)%nat -> Rabs (times nz (cH P) z i) <= tol * maxabs nz z) /\
    rsum nz (fun i => cf P i * z i) < 0 /\ / 100000000000000 < maxabs nz z.
End CertSpec.

(* ---------- the code computes exactly these ---------- *)
Lemma maxabs_nonneg n f : 0 <= maxabs n f.
Proof. induction n as [|n IH]; cbn; [lra|]. eapply Rle_trans; [exact IH|apply Rmax_l]. Qed.
Lemma maxabs_ge n f i : (i < n)%nat -> Rabs (f i) <= maxabs n f.
Proof.
  induction n as [|n IH]; intro H; [lia|]. cbn.
  destruct (Nat.eq_dec i n) as [ -> |E]; [apply Rmax_r|].
  eapply Rle_trans; [apply IH; lia|apply Rmax_l].
Qed.
Lemma maxabs_le n f c : 0 <= c -> (maxabs n f <= c <-> forall i, (i < n)%nat -> Rabs (f i) <= c).
Proof.
  intro Hc. split.
  - intros L i Hi. eapply Rle_trans; [apply maxabs_ge; exact Hi|exact L].
  - intro A. induction n as [|n IH]; cbn; [exact Hc|]. apply Rmax_lub; [apply IH; intros; apply A; lia|apply A; lia].
Qed.
Lemma vinf_maxabs (v : vec R) n : length v = n -> vinf Rops v = maxabs n (rg v).
Proof.
  intros <-. apply Rle_antisym.
  - apply vinf_le; [apply maxabs_nonneg|]. intros i Hi. apply maxabs_ge. exact Hi.
  - apply maxabs_le; [apply vinf_nonneg|]. intros i Hi. apply vinf_ge. exact Hi.
Qed.
Lemma e14 : o_dec Rops 1 (-14) = / 100000000000000.
Proof. cbn. unfold Rdec. cbn. lra. Qed.

Section Cert.
  Context {D : Type} (DI : DataI R D) (d : D) (P : QP).
  Hypothesis EX : Explicit DI d P.
  Notation nz := (n_z P). Notation nl := (n_l P). Notation nv := (n_v P).
  Notation vok := (var_ok nz nl nv).
  Notation zz x := (rg (v_z x)). Notation ll x := (rg (v_l x)). Notation vv x := (rg (v_v x)).

  Theorem C31_C32_test_exact : forall tz tl tv tol x, (0 < nv)%nat -> 0 <= tol -> vok x ->
    length tz = nz -> length tl = nl -> length tv = nv ->
    exists fs, feasibility_test Rops DI d nz nl nv tz tl tv tol x = Ok fs /\
      (fs = FS_PRIMAL \/ fs = FS_BOTH <-> primal_certificate P tol (ll x) (vv x)) /\
      (fs = FS_DUAL \/ fs = FS_BOTH <-> dual_certificate P tol (zz x)).
  Proof.
    intros tz tl tv tol x Pv Ht (Vz & Vl & Vv & Vy) Lz Ll Lv.
    unfold feasibility_test, ff_check. cbn [deref_checked ff_data rbind at_point fv_x ff_tv ff_tl ff_tz ff_nz ff_nl ff_nv].
    destruct (ex_A _ _ _ EX (v_z x) 1 0 tv Vz Lv) as (a1 & A1 & A2 & A3). cbn [o_one o_zero Rops]. rewrite A1. cbn [rbind].
    rewrite A2. replace (0 <? nv)%nat with true by (symmetry; apply Nat.ltb_lt; exact Pv). cbn [ub_unless rbind].
    destruct (ex_G _ _ _ EX (v_z x) 1 0 tl Vz Ll) as (g1 & G1 & G2 & G3). rewrite G1. cbn [rbind].
    destruct (ex_H _ _ _ EX (v_z x) 1 0 tz Vz Lz) as (h1 & H1 & H2 & H3). rewrite H1. cbn [rbind]. rewrite H2.
    destruct (ex_f _ _ _ EX 1 (vconst nz 0) (vconst_len _ _)) as (f1 & F1 & F2 & F3). rewrite F1. cbn [rbind].
    rewrite F2, Vz, Nat.eqb_refl. cbn [ub_unless rbind].
    destruct (ex_AT _ _ _ EX (v_v x) 1 1 (vconst nz 0) Vv (vconst_len _ _)) as (t1 & T1 & T2 & T3). rewrite T1. cbn [rbind].
    destruct (ex_GT _ _ _ EX (v_l x) 1 1 t1 (or_introl eq_refl) Vl T2) as (t2 & U1 & U2 & U3). rewrite U1. cbn [rbind].
    destruct (ex_b _ _ _ EX 1 (vconst nv 0) (vconst_len _ _)) as (b1 & B1 & B2 & B3). rewrite B1. cbn [rbind]. rewrite G2.
    destruct (ex_h _ _ _ EX 1 (vconst nl 0) (vconst_len _ _)) as (c1 & C1 & C2 & C3). rewrite C1. cbn [rbind].
    rewrite C2, Vl, B2, Vv, !Nat.eqb_refl. cbn [andb ub_unless rbind].
    eexists. split; [reflexivity|]. cbn [snd]. rewrite e14.
    set (pbad := o_leb Rops (vinf Rops t2) _ && _).
    set (dbad := _ && o_ltb Rops (/ 100000000000000) _).
    assert (PB : pbad = true <-> primal_certificate P tol (ll x) (vv x)).
    { unfold pbad. rewrite andb_true_iff. cbn [o_leb o_ltb o_mul o_add o_zero Rops]. rewrite Rleb_true, Rltb_true.
      rewrite smax_R, (vinf_maxabs (v_v x) nv Vv), (vinf_maxabs (v_l x) nl Vl).
      set (u := Rmax _ _). assert (U0 : 0 <= u) by (eapply Rle_trans; [apply maxabs_nonneg|apply Rmax_l]).
      rewrite vinf_le by nra. rewrite U2. unfold primal_certificate. fold u. unfold vdot. cbn [o_dot Rops].
      rewrite !Rdot_rsum by congruence. rewrite C2, B2. unfold dual_value.
      replace (rsum nl (fun i => rg c1 i * ll x i)) with (rsum nl (fun k => ch P k * ll x k)).
      2:{ apply rsum_ext. intros k Hk. rewrite C3, rg_const by exact Hk. ring. }
      replace (rsum nv (fun i => rg b1 i * vv x i)) with (rsum nv (fun k => cb P k * vv x k)).
      2:{ apply rsum_ext. intros k Hk. rewrite B3, rg_const by exact Hk. ring. }
      split; (intros [K1 K2]; split; [|exact K2]); intros i Hi; specialize (K1 i Hi);
        rewrite U3, T3, rg_const in * by exact Hi; revert K1; apply Rle_trans; right; f_equal; ring. }
    assert (DB : dbad = true <-> dual_certificate P tol (zz x)).
    { unfold dbad. rewrite !andb_true_iff. cbn [o_leb o_ltb o_mul o_add o_zero o_maxc Rops]. rewrite !Rleb_true, !Rltb_true.
      rewrite (vinf_maxabs (v_z x) nz Vz). set (u := maxabs nz (zz x)).
      assert (U0 : 0 <= u) by apply maxabs_nonneg.
      rewrite (vinf_le g1), (vinf_le h1) by nra. rewrite Rmaxc_le by (rewrite A2; exact Pv). rewrite A2, G2, H2.
      unfold dual_certificate. fold u. unfold vdot. cbn [o_dot Rops]. rewrite !Rdot_rsum by congruence. rewrite F2.
      replace (rsum nz (fun i => rg f1 i * zz x i)) with (rsum nz (fun k => cf P k * zz x k)).
      2:{ apply rsum_ext. intros k Hk. rewrite F3, rg_const by exact Hk. ring. }
      split.
      - intros ((((K1 & K2) & K3) & K4) & K5). split; [|split; [|split; [|split; [exact K4|exact K5]]]].
        + intros i Hi; specialize (K1 i Hi). rewrite A3 in K1 by exact Hi. lra.
        + intros i Hi; specialize (K2 i Hi). rewrite G3 in K2 by exact Hi. revert K2. apply Rle_trans; right; f_equal; ring.
        + intros i Hi; specialize (K3 i Hi). rewrite H3 in K3 by exact Hi. revert K3. apply Rle_trans; right; f_equal; ring.
      - intros (K1 & K2 & K3 & K4 & K5). split; [split; [split; [split|]|exact K4]|exact K5].
        + intros i Hi; specialize (K1 i Hi). rewrite A3 by exact Hi. lra.
        + intros i Hi; specialize (K2 i Hi). rewrite G3 by exact Hi. revert K2. apply Rle_trans; right; f_equal; ring.
        + intros i Hi; specialize (K3 i Hi). rewrite H3 by exact Hi. revert K3. apply Rle_trans; right; f_equal; ring. }
    rewrite <- PB, <- DB. destruct pbad, dbad; cbn; split; split; intros K; try reflexivity; try discriminate;
      try (destruct K; discriminate); auto.
  Qed.
End Cert.

(* ---------------------------------------------------------------- C31 *)
Section Farkas.
  Variable P : QP.
  Notation nz := (n_z P). Notation nl := (n_l P). Notation nv := (n_v P).

  (* What a primal certificate says about a feasible point, whatever the signs of v: *)
  Theorem C31_certificate_bound : forall tol l v z, primal_certificate P tol l v -> feasible P z ->
    - dual_value P l v <=
      tol * Rmax (maxabs nv v) (maxabs nl l) * norm1 nz z +
      rsum nv (fun k => Rmax 0 (- v k) * margin P z k).
  Proof.
    intros tol l v z [C1 C2] [F1 F2].
    assert (K := dot_inf_one nz (fun i => ttimes nl (cG P) l i + ttimes nv (cA P) v i) z _ C1).
    assert (K' := Rle_abs (- rsum nz (fun i => (ttimes nl (cG P) l i + ttimes nv (cA P) v i) * z i))).
    rewrite Rabs_Ropp in K'.
    assert (E : rsum nz (fun i => (ttimes nl (cG P) l i + ttimes nv (cA P) v i) * z i) =
                rsum nl (fun k => l k * times nz (cG P) z k) + rsum nv (fun k => v k * times nz (cA P) z k)).
    { rewrite <- !adjoint, <- rsum_add. apply rsum_ext. intros; ring. }
    cbv beta in K. rewrite E in K, K'. unfold norm1, dual_value.
    assert (E1 : rsum nl (fun k => l k * times nz (cG P) z k) = rsum nl (fun k => ch P k * l k)).
    { apply rsum_ext. intros k Hk. rewrite (F1 k Hk). ring. }
    assert (E2 : rsum nv (fun k => v k * times nz (cA P) z k) <=
                 rsum nv (fun k => cb P k * v k) + rsum nv (fun k => Rmax 0 (- v k) * margin P z k)).
    { rewrite <- rsum_add. apply rsum_le. intros k Hk. specialize (F2 k Hk). unfold margin.
      destruct (Rle_dec 0 (v k)).
      - rewrite Rmax_left by lra. nra.
      - rewrite Rmax_right by lra. nra. }
    lra.
  Qed.
  (* with nonnegative multipliers: every feasible point is far away *)
  Theorem C31_certificate_sound : forall tol l v z, primal_certificate P tol l v ->
    (forall k, (k < nv)%nat -> 0 <= v k) -> feasible P z ->
    0 < - dual_value P l v <= tol * Rmax (maxabs nv v) (maxabs nl l) * norm1 nz z.
  Proof.
    intros tol l v z C V F. assert (K := C31_certificate_bound tol l v z C F). destruct C as [_ C].
    rewrite (rsum_zero nv (fun k => Rmax 0 (- v k) * margin P z k)) in K; [lra|].
    intros k Hk. specialize (V k Hk). rewrite Rmax_left by lra. ring.
  Qed.
  (* exact multipliers (the case tol = 0): the problem is infeasible *)
  Theorem C31_exact_certificate : forall l v, primal_certificate P 0 l v ->
    (forall k, (k < nv)%nat -> 0 <= v k) -> forall z, ~ feasible P z.
  Proof.
    intros l v C V z F. assert (K := C31_certificate_sound 0 l v z C V F). lra.
  Qed.
End Farkas.

(* Without a sign condition on v the certificate proves nothing: x <= 1, x <= 2 passes the test
   exactly with v = (1,-1) although it is feasible. *)
Definition two_bounds : QP :=
  mkQP 1 0 2 (fun _ _ => 1) (fun _ => 0) (fun _ _ => 0) (fun _ => 0) (fun _ _ => 1)
       (fun k => match k with O => 1 | _ => 2 end).
Theorem C31_sign_needed_refuted :
  primal_certificate two_bounds 0 (fun _ => 0) (fun k => match k with O => 1 | _ => -1 end) /\
  feasible two_bounds (fun _ => 0).
Proof.
  split; [split|split].
  - intros i Hi. cbn. rewrite Rmult_0_l. match goal with |- Rabs ?a <= 0 => replace a with 0 by ring end.
    rewrite Rabs_R0. lra.
  - unfold dual_value. cbn. lra.
  - cbn. lia.
  - intros k _. unfold times; cbn. destruct k; lra.
Qed.
(* non-vacuity of C31_exact_certificate: x <= -1, -x <= 0 *)
Definition contradictory : QP :=
  mkQP 1 0 2 (fun _ _ => 1) (fun _ => 0) (fun _ _ => 0) (fun _ => 0)
       (fun k _ => match k with O => 1 | _ => -1 end) (fun k => match k with O => -1 | _ => 0 end).
Example C31_example : primal_certificate contradictory 0 (fun _ => 0) (fun _ => 1).
Proof.
  split.
  - intros i Hi. cbn. rewrite Rmult_0_l. match goal with |- Rabs ?a <= 0 => replace a with 0 by ring end.
    rewrite Rabs_R0. lra.
  - unfold dual_value; cbn. lra.
Qed.

(* ---------------------------------------------------------------- C32 *)
Section Ray.
  Variable P : QP.
  Notation nz := (n_z P). Notation nl := (n_l P). Notation nv := (n_v P).
  Hypothesis sym : forall i j, (i < nz)%nat -> (j < nz)%nat -> cH P i j = cH P j i.

  Lemma H_adj z w : rsum nz (fun i => times nz (cH P) w i * z i) = rsum nz (fun i => times nz (cH P) z i * w i).
  Proof.
    rewrite (rsum_ext nz (fun i => times nz (cH P) z i * w i) (fun i => w i * times nz (cH P) z i)) by (intros; ring).
    rewrite <- (adjoint P nz (cH P) w z). apply rsum_ext. intros i Hi. f_equal. unfold times, ttimes.
    apply rsum_ext. intros j Hj. rewrite sym by assumption. reflexivity.
  Qed.

  (* every dual-feasible point (stationary, v >= 0) is far away *)
  Theorem C32_certificate_sound : forall tol z w l v, 0 <= tol -> dual_certificate P tol z ->
    (forall i, (i < nz)%nat -> lagr P w l v i = 0) -> (forall k, (k < nv)%nat -> 0 <= v k) ->
    0 < - rsum nz (fun i => cf P i * z i) <=
    tol * maxabs nz z * (norm1 nz w + norm1 nl l + norm1 nv v).
  Proof.
    intros tol z w l v Ht (CA & CG & CH & Cf & _) L V. split; [lra|].
    assert (E : rsum nz (fun i => cf P i * z i) =
      - rsum nz (fun i => times nz (cH P) z i * w i) - rsum nl (fun k => l k * times nz (cG P) z k) -
      rsum nv (fun k => v k * times nz (cA P) z k)).
    { rewrite <- H_adj, <- !adjoint, <- rsum_opp, <- !rsum_sub. apply rsum_ext. intros i Hi.
      specialize (L i Hi). unfold lagr in L.
      replace (cf P i) with (- times nz (cH P) w i - ttimes nl (cG P) l i - ttimes nv (cA P) v i) by lra. ring. }
    assert (K1 := dot_inf_one nz _ w _ CH). assert (K2 := dot_inf_one nl _ l _ CG).
    assert (K1' := Rle_abs (rsum nz (fun i => times nz (cH P) z i * w i))).
    assert (K2' := Rle_abs (rsum nl (fun k => times nz (cG P) z k * l k))).
    assert (E2 : rsum nl (fun k => l k * times nz (cG P) z k) = rsum nl (fun k => times nz (cG P) z k * l k))
      by (apply rsum_ext; intros; ring).
    assert (K3 : rsum nv (fun k => v k * times nz (cA P) z k) <= tol * maxabs nz z * norm1 nv v).
    { unfold norm1. rewrite <- rsum_scal. apply rsum_le. intros k Hk. specialize (V k Hk). specialize (CA k Hk).
      rewrite Rabs_right by lra. nra. }
    unfold norm1 in *. lra.
  Qed.

  (* moving from any point w along the ray: constraint violation and objective *)
  Theorem C32_ray_descent : forall tol z w t, 0 <= t -> dual_certificate P tol z -> feasible P w ->
    let w' := fun i => w i + t * z i in
    (forall k, (k < nv)%nat -> times nz (cA P) w' k <= cb P k + t * (tol * maxabs nz z)) /\
    (forall k, (k < nl)%nat -> Rabs (times nz (cG P) w' k - ch P k) <= t * (tol * maxabs nz z)) /\
    objective P w' <= objective P w + t * rsum nz (fun i => cf P i * z i) +
       tol * maxabs nz z * (t * norm1 nz w + t * t / 2 * norm1 nz z).
  Proof.
    intros tol z w t Ht (CA & CG & CH & Cf & _) [F1 F2] w'.
    assert (TM : forall (M : nat -> nat -> R) k, times nz M w' k = times nz M w k + t * times nz M z k).
    { intros M k. unfold times, w'. rewrite <- rsum_scal, <- rsum_add. apply rsum_ext. intros; ring. }
    split; [|split].
    - intros k Hk. rewrite TM. specialize (CA k Hk). specialize (F2 k Hk). nra.
    - intros k Hk. rewrite TM, (F1 k Hk). replace (ch P k + t * times nz (cG P) z k - ch P k) with (t * times nz (cG P) z k) by ring.
      rewrite Rabs_mult, (Rabs_right t) by lra. specialize (CG k Hk). apply Rmult_le_compat_l; assumption.
    - unfold objective.
      assert (Q := quad_expand nz (cH P) w z t sym). fold (quad P w) in Q.
      change (rsum nz (fun i => rsum nz (fun j => (w i + t * z i) * cH P i j * (w j + t * z j)))) with (quad P w') in Q.
      rewrite Q.
      assert (E1 : rsum nz (fun i => z i * rsum nz (fun j => cH P i j * w j)) = rsum nz (fun i => times nz (cH P) z i * w i)).
      { rewrite <- H_adj. apply rsum_ext. intros; unfold times; ring. }
      assert (E2 : rsum nz (fun i => cf P i * w' i) = rsum nz (fun i => cf P i * w i) + t * rsum nz (fun i => cf P i * z i)).
      { rewrite <- rsum_scal, <- rsum_add. apply rsum_ext. intros; unfold w'; ring. }
      assert (E3 : rsum nz (fun i => rsum nz (fun j => z i * cH P i j * z j)) = rsum nz (fun i => times nz (cH P) z i * z i)).
      { apply rsum_ext. intros i Hi. unfold times. rewrite <- rsum_scal_r. apply rsum_ext. intros; ring. }
      rewrite E1, E2, E3.
      assert (K1 := dot_inf_one nz _ w _ CH). assert (K2 := dot_inf_one nz _ z _ CH).
      assert (K1' := Rle_abs (rsum nz (fun i => times nz (cH P) z i * w i))).
      assert (K2' := Rle_abs (rsum nz (fun i => times nz (cH P) z i * z i))).
      unfold norm1.
      set (a := rsum nz (fun i => times nz (cH P) z i * w i)) in *.
      set (b := rsum nz (fun i => times nz (cH P) z i * z i)) in *.
      set (m := tol * maxabs nz z) in *. set (nw := rsum nz (fun i => Rabs (w i))) in *.
      set (nzz := rsum nz (fun i => Rabs (z i))) in *.
      assert (A1 : t * a <= t * (m * nw)) by (apply Rmult_le_compat_l; lra).
      assert (A2 : t * t / 2 * b <= t * t / 2 * (m * nzz)) by (apply Rmult_le_compat_l; nra).
      nra.
  Qed.

  (* exact ray (tol = 0) in a feasible problem: the objective is unbounded below *)
  Theorem C32_exact_ray : forall z w, dual_certificate P 0 z -> feasible P w ->
    forall M, exists w', feasible P w' /\ objective P w' < M.
  Proof.
    intros z w C F M. assert (C' := C). destruct C' as (_ & _ & _ & Cf & _).
    set (s := rsum nz (fun i => cf P i * z i)) in *.
    set (t := Rmax 0 ((objective P w - M + 1) / - s)).
    assert (T0 : 0 <= t) by apply Rmax_l.
    destruct (C32_ray_descent 0 z w t T0 C F) as (K1 & K2 & K3). cbv zeta in K1, K2, K3. fold s in K3.
    exists (fun i => w i + t * z i). split; [split|].
    - intros k Hk. specialize (K2 k Hk). rewrite Rmult_0_l, Rmult_0_r in K2.
      assert (A := Rabs_pos (times nz (cG P) (fun i => w i + t * z i) k - ch P k)).
      destruct (Req_dec (times nz (cG P) (fun i => w i + t * z i) k - ch P k) 0) as [E|E]; [lra|].
      apply Rabs_no_R0 in E. lra.
    - intros k Hk. specialize (K1 k Hk). lra.
    - assert (T1 : (objective P w - M + 1) / - s <= t) by apply Rmax_r.
      assert (T2 : objective P w - M + 1 <= t * - s).
      { apply (Rmult_le_compat_r (- s)) in T1; [|lra].
        replace ((objective P w - M + 1) / - s * - s) with (objective P w - M + 1) in T1 by (field; lra). exact T1. }
      lra.
  Qed.
End Ray.
(* non-vacuity: minimise -x subject to -x <= 0 *)
Definition unbounded_lp : QP :=
  mkQP 1 0 1 (fun _ _ => 0) (fun _ => -1) (fun _ _ => 0) (fun _ => 0) (fun _ _ => -1) (fun _ => 0).
Example C32_example : dual_certificate unbounded_lp 0 (fun _ => 1) /\ feasible unbounded_lp (fun _ => 1) /\
  (forall i j, (i < n_z unbounded_lp)%nat -> (j < n_z unbounded_lp)%nat -> cH unbounded_lp i j = cH unbounded_lp j i).
Proof.
  assert (E : Rabs 1 = 1) by (apply Rabs_right; lra).
  split; [|split; [split|reflexivity]].
  - unfold dual_certificate. cbn. unfold times; cbn. rewrite E, Rmax_right by lra.
    repeat split; intros; try lia; try lra.
    match goal with |- Rabs ?a <= _ => replace a with 0 by ring end. rewrite Rabs_R0. lra.
  - cbn; lia.
  - intros k _. unfold times; cbn. lra.
Qed.

Print Assumptions C31_C32_test_exact.
Print Assumptions C32_exact_ray.
