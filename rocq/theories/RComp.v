(* What the component methods compute over the reals, for a data class whose products are those
   of an explicit QP. *)
From Verif Require Export QPSpec Spec.
Local Open Scope R_scope.

(* The data object [d] behaves as the QP [P]: every product is the explicit matrix product.
   (gemvGT only for the scalings 1, -1 and 0, see C24.) *)
Record Explicit {D} (DI : DataI R D) (d : D) (P : QP) : Prop := {
  ex_H : forall x a b y, length x = n_z P -> length y = n_z P -> exists r,
    di_gemvH DI d x a b y = Ok r /\ length r = n_z P /\
    forall i, (i < n_z P)%nat -> rg r i = a * times (n_z P) (cH P) (rg x) i + b * rg y i;
  ex_G : forall x a b y, length x = n_z P -> length y = n_l P -> exists r,
    di_gemvG DI d x a b y = Ok r /\ length r = n_l P /\
    forall i, (i < n_l P)%nat -> rg r i = a * times (n_z P) (cG P) (rg x) i + b * rg y i;
  ex_A : forall x a b y, length x = n_z P -> length y = n_v P -> exists r,
    di_gemvA DI d x a b y = Ok r /\ length r = n_v P /\
    forall i, (i < n_v P)%nat -> rg r i = a * times (n_z P) (cA P) (rg x) i + b * rg y i;
  ex_GT : forall x a b y, a = 1 \/ a = -1 \/ a = 0 -> length x = n_l P -> length y = n_z P -> exists r,
    di_gemvGT DI d x a b y = Ok r /\ length r = n_z P /\
    forall i, (i < n_z P)%nat -> rg r i = a * ttimes (n_l P) (cG P) (rg x) i + b * rg y i;
  ex_AT : forall x a b y, length x = n_v P -> length y = n_z P -> exists r,
    di_gemvAT DI d x a b y = Ok r /\ length r = n_z P /\
    forall i, (i < n_z P)%nat -> rg r i = a * ttimes (n_v P) (cA P) (rg x) i + b * rg y i;
  ex_f : forall a y, length y = n_z P -> exists r, di_axpyf DI d a y = Ok r /\ length r = n_z P /\
    forall i, (i < n_z P)%nat -> rg r i = a * cf P i + rg y i;
  ex_h : forall a y, length y = n_l P -> exists r, di_axpyh DI d a y = Ok r /\ length r = n_l P /\
    forall i, (i < n_l P)%nat -> rg r i = a * ch P i + rg y i;
  ex_b : forall a y, length y = n_v P -> exists r, di_axpyb DI d a y = Ok r /\ length r = n_v P /\
    forall i, (i < n_v P)%nat -> rg r i = a * cb P i + rg y i;
  ex_fnorm : di_fnorm DI d =
    sqrt (rsum (n_z P) (fun i => cf P i * cf P i) + rsum (n_l P) (fun i => ch P i * ch P i) +
          rsum (n_v P) (fun i => cb P i * cb P i)) }.

Lemma rg_const n a i : (i < n)%nat -> rg (vconst n a) i = a.
Proof. intro H. unfold vconst. apply (vget_tab Rops). exact H. Qed.

(* the penalised Fischer-Burmeister function and the penalised natural residual *)
Definition phi (alpha a b : R) : R :=
  alpha * (a + b - sqrt (a * a + b * b)) + (1 - alpha) * Rmax 0 a * Rmax 0 b.
Definition pnat (alpha a b : R) : R := alpha * Rmin a b + (1 - alpha) * Rmax 0 a * Rmax 0 b.

Lemma smin_R a b : smin Rops a b = Rmin a b.
Proof.
  unfold smin; cbn [o_ltb Rops]. unfold Rmin. destruct (Rltb b a) eqn:E.
  - apply Rltb_true in E. destruct (Rle_dec a b); [lra|reflexivity].
  - apply Rltb_false in E. destruct (Rle_dec a b); [reflexivity|lra].
Qed.
Lemma smax_R a b : smax Rops a b = Rmax a b.
Proof.
  unfold smax; cbn [o_ltb Rops]. unfold Rmax. destruct (Rltb a b) eqn:E.
  - apply Rltb_true in E. destruct (Rle_dec a b); [reflexivity|lra].
  - apply Rltb_false in E. destruct (Rle_dec a b); [lra|reflexivity].
Qed.
Lemma pfb_R a b alpha : pfb Rops a b alpha = phi alpha a b.
Proof. unfold pfb, phi. cbn [o_add o_sub o_mul o_sqrt o_one o_zero Rops]. rewrite !smax_R. reflexivity. Qed.

Section RComp.
  Context {D : Type} (DI : DataI R D) (d : D) (P : QP).
  Hypothesis EX : Explicit DI d P.
  Notation nz := (n_z P). Notation nl := (n_l P). Notation nv := (n_v P).
  Notation at_p := (at_point d nz nl nv).
  Notation vok := (var_ok nz nl nv).

  (* sum of squares of a residual with given entries *)
  Definition sumsq (rz rl rv : nat -> R) : R :=
    rsum nz (fun i => rz i * rz i) + rsum nl (fun i => rl i * rl i) + rsum nv (fun i => rv i * rv i).
  Lemma sumsq_nonneg rz rl rv : 0 <= sumsq rz rl rv.
  Proof.
    unfold sumsq.
    assert (0 <= rsum nz (fun i => rz i * rz i)) by (apply rsum_nonneg; intros; apply Rle_0_sqr).
    assert (0 <= rsum nl (fun i => rl i * rl i)) by (apply rsum_nonneg; intros; apply Rle_0_sqr).
    assert (0 <= rsum nv (fun i => rv i * rv i)) by (apply rsum_nonneg; intros; apply Rle_0_sqr).
    lra.
  Qed.

  Lemma mk_norm z l v rz rl rv : length z = nz -> length l = nl -> length v = nv ->
    (forall i, (i < nz)%nat -> rg z i = rz i) -> (forall i, (i < nl)%nat -> rg l i = rl i) ->
    (forall i, (i < nv)%nat -> rg v i = rv i) ->
    rsd_norm Rops (mk_rsd Rops z l v) = sqrt (sumsq rz rl rv).
  Proof.
    intros Lz Ll Lv Ez El Ev. unfold rsd_norm, mk_rsd, sumsq; cbn [r_zn r_ln r_vn o_sqrt o_add o_mul Rops].
    rewrite !norm_sq, Lz, Ll, Lv. f_equal. f_equal; [f_equal|];
      apply rsum_ext; intros i Hi; rewrite ?Ez, ?El, ?Ev by exact Hi; reflexivity.
  Qed.

  Lemma grad_lemma x zlen : vok x -> zlen = nz ->
    exists z1 z2 z3 z4,
      di_axpyf DI d 1 (vconst zlen 0) = Ok z1 /\ di_gemvH DI d (v_z x) 1 1 z1 = Ok z2 /\
      di_gemvGT DI d (v_l x) 1 1 z2 = Ok z3 /\ di_gemvAT DI d (v_v x) 1 1 z3 = Ok z4 /\
      length z4 = nz /\
      forall i, (i < nz)%nat -> rg z4 i = lagr P (rg (v_z x)) (rg (v_l x)) (rg (v_v x)) i.
  Proof.
    intros (Hz & Hl & Hv & Hy) ->.
    destruct (ex_f _ _ _ EX 1 (vconst nz 0)) as (z1 & E1 & L1 & V1); [apply vconst_len|].
    destruct (ex_H _ _ _ EX (v_z x) 1 1 z1 Hz L1) as (z2 & E2 & L2 & V2).
    destruct (ex_GT _ _ _ EX (v_l x) 1 1 z2 (or_introl eq_refl) Hl L2) as (z3 & E3 & L3 & V3).
    destruct (ex_AT _ _ _ EX (v_v x) 1 1 z3 Hv L3) as (z4 & E4 & L4 & V4).
    exists z1, z2, z3, z4. repeat split; auto. intros i Hi.
    rewrite V4, V3, V2, V1, rg_const by exact Hi. unfold lagr. lra.
  Qed.
  Lemma eq_lemma x llen : vok x -> llen = nl ->
    exists l1 l2, di_axpyh DI d 1 (vconst llen 0) = Ok l1 /\
      di_gemvG DI d (v_z x) (-(1)) 1 l1 = Ok l2 /\ length l2 = nl /\
      forall k, (k < nl)%nat -> rg l2 k = ch P k - times nz (cG P) (rg (v_z x)) k.
  Proof.
    intros (Hz & Hl & Hv & Hy) ->.
    destruct (ex_h _ _ _ EX 1 (vconst nl 0)) as (l1 & E1 & L1 & V1); [apply vconst_len|].
    destruct (ex_G _ _ _ EX (v_z x) (-(1)) 1 l1 Hz L1) as (l2 & E2 & L2 & V2).
    exists l1, l2. repeat split; auto. intros k Hk. rewrite V2, V1, rg_const by exact Hk. lra.
  Qed.

  (* the entries of the three residuals *)
  Definition res_z (x : var R) (i : nat) : R := lagr P (rg (v_z x)) (rg (v_l x)) (rg (v_v x)) i.
  Definition res_l (x : var R) (k : nat) : R := ch P k - times nz (cG P) (rg (v_z x)) k.
  Definition pnat_v (alpha : R) (x : var R) (k : nat) : R := pnat alpha (rg (v_y x) k) (rg (v_v x) k).
  Definition nat_v (x : var R) (k : nat) : R := Rmin (rg (v_y x) k) (rg (v_v x) k).
  Definition sub_z (sigma : R) (x xb : var R) (i : nat) : R :=
    res_z x i + sigma * (rg (v_z x) i - rg (v_z xb) i).
  Definition sub_l (sigma : R) (x xb : var R) (k : nat) : R :=
    res_l x k + sigma * (rg (v_l x) k - rg (v_l xb) k).
  Definition sub_v (alpha sigma : R) (x xb : var R) (k : nat) : R :=
    phi alpha (rg (v_y x) k + sigma * (rg (v_v x) k - rg (v_v xb) k)) (rg (v_v x) k).

  Notation blank a := (blank_residual Rops d nz nl nv a).

  (* NaturalResidual *)
  Lemma natural_R alpha x : vok x -> exists r, fr_natural Rops DI (at_p x) (blank alpha) = Ok r /\
    fr_alpha r = alpha /\ fr_nv r = nv /\ length (r_z (fr_r r)) = nz /\ length (r_l (fr_r r)) = nl /\
    length (r_v (fr_r r)) = nv /\
    (forall i, (i < nz)%nat -> rg (r_z (fr_r r)) i = res_z x i) /\
    (forall k, (k < nl)%nat -> rg (r_l (fr_r r)) k = res_l x k) /\
    (forall k, (k < nv)%nat -> rg (r_v (fr_r r)) k = nat_v x k) /\
    rsd_norm Rops (fr_r r) = sqrt (sumsq (res_z x) (res_l x) (nat_v x)).
  Proof.
    intro V. assert (V' := V). destruct V' as (Hz & Hl & Hv & Hy).
    unfold fr_natural, at_point, blank_residual, deref_checked. cbn [fr_data fv_x fr_r r_z r_l r_v fr_nv rbind].
    autorewrite with vlen.
    destruct (grad_lemma x nz V eq_refl) as (z1 & z2 & z3 & z4 & E1 & E2 & E3 & E4 & Lz & Vz).
    destruct (eq_lemma x nl V eq_refl) as (l1 & l2 & F1 & F2 & Ll & Vl).
    change (o_zero Rops) with 0. change (o_one Rops) with 1. change (o_mone Rops) with (-(1)).
    rewrite E1; cbn [rbind]; rewrite E2; cbn [rbind]; rewrite E3; cbn [rbind]; rewrite E4; cbn [rbind].
    rewrite F1; cbn [rbind]; rewrite F2; cbn [rbind].
    rewrite Hy, Hv, Nat.leb_refl, Nat.eqb_refl. cbn [andb ub_unless rbind].
    eexists. split; [reflexivity|]. cbn [fr_set fr_alpha fr_nv fr_r mk_rsd r_z r_l r_v].
    rewrite tab_length.
    assert (Vv : forall k, (k < nv)%nat ->
      rg (tab nv (fun i => smin Rops (rg (v_y x) i) (rg (v_v x) i))) k = nat_v x k).
    { intros k Hk. rewrite (vget_tab Rops) by exact Hk. apply smin_R. }
    repeat split; auto.
    apply mk_norm; auto. apply tab_length.
  Qed.

  (* PenalizedNaturalResidual: its norm *)
  Lemma kkt_residual_R alpha x : vok x ->
    kkt_residual Rops DI d nz nl nv alpha x = Ok (sqrt (sumsq (res_z x) (res_l x) (pnat_v alpha x))).
  Proof.
    intro V. destruct (natural_R alpha x V) as (r & E & Ea & En & Lz & Ll & Lv & Vz & Vl & Vv & _).
    unfold kkt_residual, fr_pnr. rewrite E. cbn [rbind]. f_equal. cbn [fr_set fr_r].
    apply mk_norm; auto; [rewrite tab_length; exact En|].
    intros k Hk. rewrite En, (vget_tab Rops) by exact Hk. rewrite Ea, Vv by exact Hk.
    rewrite !smax_R. reflexivity.
  Qed.

  (* InnerResidual: entries and norm *)
  Lemma inner_R alpha sigma x xb : vok x -> vok xb ->
    exists r, fr_inner Rops DI (at_p x) (at_p xb) sigma (blank alpha) = Ok r /\
    length (r_z (fr_r r)) = nz /\ length (r_l (fr_r r)) = nl /\ length (r_v (fr_r r)) = nv /\
    (forall i, (i < nz)%nat -> rg (r_z (fr_r r)) i = sub_z sigma x xb i) /\
    (forall k, (k < nl)%nat -> rg (r_l (fr_r r)) k = sub_l sigma x xb k) /\
    (forall k, (k < nv)%nat -> rg (r_v (fr_r r)) k = sub_v alpha sigma x xb k) /\
    rsd_norm Rops (fr_r r) = sqrt (sumsq (sub_z sigma x xb) (sub_l sigma x xb) (sub_v alpha sigma x xb)).
  Proof.
    intros V VB. assert (V' := V). destruct V' as (Hz & Hl & Hv & Hy). destruct VB as (Bz & Bl & Bv & By).
    unfold fr_inner, at_point, blank_residual, deref_checked. cbn [fr_data fv_x fr_r r_z r_l r_v fr_nv rbind].
    autorewrite with vlen.
    destruct (grad_lemma x nz V eq_refl) as (z1 & z2 & z3 & z4 & E1 & E2 & E3 & E4 & Lz & Vz).
    destruct (eq_lemma x nl V eq_refl) as (l1 & l2 & F1 & F2 & Ll & Vl).
    change (o_zero Rops) with 0. change (o_one Rops) with 1. change (o_mone Rops) with (-(1)).
    rewrite E1; cbn [rbind]; rewrite E2; cbn [rbind]; rewrite E3; cbn [rbind]; rewrite E4; cbn [rbind].
    rewrite Hz, Bz, Lz, Nat.eqb_refl. cbn [andb ub_unless rbind].
    rewrite F1; cbn [rbind]; rewrite F2; cbn [rbind].
    rewrite Hl, Bl, Ll, Nat.eqb_refl. cbn [andb ub_unless rbind].
    rewrite Hy, Hv, Bv, Nat.leb_refl, Nat.eqb_refl. cbn [andb ub_unless rbind].
    eexists. split; [reflexivity|]. cbn [fr_set fr_alpha fr_nv fr_r mk_rsd r_z r_l r_v].
    assert (Wz : forall i, (i < nz)%nat ->
      rg (vaxpy Rops sigma (vsub Rops (v_z x) (v_z xb)) z4) i = sub_z sigma x xb i).
    { intros i Hi. unfold vaxpy. rewrite Lz, (vget_tab Rops) by exact Hi. unfold vsub.
      rewrite Hz, (vget_tab Rops) by exact Hi. rewrite Vz by exact Hi. reflexivity. }
    assert (Wl : forall i, (i < nl)%nat ->
      rg (vaxpy Rops sigma (vsub Rops (v_l x) (v_l xb)) l2) i = sub_l sigma x xb i).
    { intros i Hi. unfold vaxpy. rewrite Ll, (vget_tab Rops) by exact Hi. unfold vsub.
      rewrite Hl, (vget_tab Rops) by exact Hi. rewrite Vl by exact Hi. reflexivity. }
    assert (Wv : forall k, (k < nv)%nat ->
      rg (tab nv (fun i => pfb Rops (o_add Rops (rg (v_y x) i)
         (o_mul Rops sigma (o_sub Rops (rg (v_v x) i) (rg (v_v xb) i)))) (rg (v_v x) i) alpha)) k =
      sub_v alpha sigma x xb k).
    { intros k Hk. rewrite (vget_tab Rops) by exact Hk. rewrite pfb_R. reflexivity. }
    autorewrite with vlen. repeat split; auto.
    apply mk_norm; autorewrite with vlen; auto.
  Qed.

  Lemma sub_residual_R alpha sigma x xb : vok x -> vok xb ->
    sub_residual Rops DI d nz nl nv alpha sigma x xb =
    Ok (sqrt (sumsq (sub_z sigma x xb) (sub_l sigma x xb) (sub_v alpha sigma x xb))).
  Proof.
    intros V VB. destruct (inner_R alpha sigma x xb V VB) as (r & E & _ & _ & _ & _ & _ & _ & N).
    unfold sub_residual. rewrite E. cbn [rbind]. rewrite N. reflexivity.
  Qed.
  Lemma sub_merit_R alpha sigma x xb : vok x -> vok xb ->
    sub_merit Rops DI d nz nl nv alpha sigma x xb =
    Ok (1 / 2 * sumsq (sub_z sigma x xb) (sub_l sigma x xb) (sub_v alpha sigma x xb)).
  Proof.
    intros V VB. destruct (inner_R alpha sigma x xb V VB) as (r & E & _ & _ & _ & _ & _ & _ & N).
    unfold sub_merit. rewrite E. cbn [rbind]. unfold rsd_merit. rewrite N. f_equal.
    cbn [o_half o_mul Rops]. rewrite Rmult_assoc, sqrt_sqrt by apply sumsq_nonneg.
    f_equal. unfold o_half. cbn. unfold o_two. cbn. lra.
  Qed.
End RComp.
