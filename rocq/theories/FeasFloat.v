(* The infeasibility test in rounded arithmetic: what a positive answer says about the exact problem. *)
From Verif Require Export MpcFwd2 PropsCert.
Local Open Scope R_scope.

(* ---------- specification ---------- *)
(* a quantity that was found to be at most t by a computation in K roundings of terms of total size [terms]:
   g relative error, e underflow threshold *)
Definition rbound (K : nat) (g e t terms : R) : R := (1 + g) * t + g * terms + 8 * INR K * e.
Section RaySpec.
  Variable P : QP.
  Notation nz := (n_z P). Notation nl := (n_l P). Notation nv := (n_v P).
  (* the sizes of the terms in (G'l + A'v)_i and in h'l + b'v *)
  Definition ray_terms (l v : nat -> R) (i : nat) : R :=
    rsum nl (fun j => Rabs (cG P j i * l j)) + rsum nv (fun j => Rabs (cA P j i * v j)).
  Definition value_terms (l v : nat -> R) : R :=
    rsum nl (fun k => Rabs (ch P k * l k)) + rsum nv (fun k => Rabs (cb P k * v k)).

  (* primal_certificate of PropsCert.v up to rounding: g relative error, e underflow threshold *)
  Record primal_ray (K : nat) (g e tol : R) (l v : nat -> R) : Prop := {
    pr_stationary : forall i, (i < nz)%nat ->
      Rabs (ttimes nl (cG P) l i + ttimes nv (cA P) v i) <=
      rbound K g e (tol * Rmax (maxabs nv v) (maxabs nl l)) (ray_terms l v i);
    pr_value : dual_value P l v < g * value_terms l v + 4 * INR K * e * (1 + norm1 nl l + norm1 nv v) }.
  (* dual_certificate up to rounding *)
  Record dual_ray (K : nat) (g e tol small : R) (z : nat -> R) : Prop := {
    dr_A : forall k, (k < nv)%nat -> times nz (cA P) z k <=
      rbound K g e (tol * maxabs nz z) (rsum nz (fun j => Rabs (cA P k j * z j)));
    dr_G : forall k, (k < nl)%nat -> Rabs (times nz (cG P) z k) <=
      rbound K g e (tol * maxabs nz z) (rsum nz (fun j => Rabs (cG P k j * z j)));
    dr_H : forall i, (i < nz)%nat -> Rabs (times nz (cH P) z i) <=
      rbound K g e (tol * maxabs nz z) (rsum nz (fun j => Rabs (cH P i j * z j)));
    dr_f : rsum nz (fun i => cf P i * z i) <
      g * rsum nz (fun i => Rabs (cf P i * z i)) + 4 * INR K * e * (1 + norm1 nz z);
    dr_z : small < maxabs nz z }.

  (* nothing larger than M occurs in the sums *)
  Record moderate_multipliers (M tol : R) (l v : nat -> R) : Prop := {
    mm_rows : forall i, (i < nz)%nat -> ray_terms l v i <= M;
    mm_h : forall k, (k < nl)%nat -> Rabs (ch P k) <= M;
    mm_b : forall k, (k < nv)%nat -> Rabs (cb P k) <= M;
    mm_value : value_terms l v <= M;
    mm_size : norm1 nl l + norm1 nv v <= M;
    mm_tol : tol * Rmax (maxabs nv v) (maxabs nl l) <= M }.
  Record moderate_direction (M tol : R) (z : nat -> R) : Prop := {
    md_A : forall k, (k < nv)%nat -> rsum nz (fun j => Rabs (cA P k j * z j)) <= M;
    md_G : forall k, (k < nl)%nat -> rsum nz (fun j => Rabs (cG P k j * z j)) <= M;
    md_H : forall i, (i < nz)%nat -> rsum nz (fun j => Rabs (cH P i j * z j)) <= M;
    md_f : forall i, (i < nz)%nat -> Rabs (cf P i) <= M;
    md_fz : rsum nz (fun i => Rabs (cf P i * z i)) <= M;
    md_size : norm1 nz z <= M;
    md_tol : tol * maxabs nz z <= M }.
End RaySpec.

Section FeasFloat.
  Context {T : Type} {O : Ops T} {fin : T -> Prop} {val : T -> R} {u eta big : R}.
  Hypothesis W : Rounded O fin val u eta.
  Hypothesis G : Ranged O fin val u eta big.
  Notation nr := (@near T val u eta).
  Notation safe := (@safe u eta big).
  Notation vv := (fun x i => val (vget O x i)).
  Notation vg := (vget O).

  (* ---- the infinity norm ---- *)
  Lemma vget_map_abs v i : (i < length v)%nat -> vg (map (o_abs O) v) i = o_abs O (vg v i).
  Proof. intro Hi. unfold vget. rewrite (nth_indep _ _ (o_abs O (o_zero O))) by (rewrite map_length; exact Hi). apply map_nth. Qed.
  Lemma vinf_fwd v n : length v = n -> fins O fin n v -> fin (vinf O v) /\ val (vinf O v) = maxabs n (vv v).
  Proof.
    intros <- F. destruct v as [|a v].
    - cbn. apply (rd_zero _ _ _ _ _ W).
    - assert (E : vinf O (a :: v) = o_maxc O (map (o_abs O) (a :: v))) by reflexivity. rewrite E.
      assert (Lm : length (map (o_abs O) (a :: v)) = length (a :: v)) by apply map_length.
      assert (EV : forall i, (i < length (a :: v))%nat -> fin (vg (map (o_abs O) (a :: v)) i) /\ val (vg (map (o_abs O) (a :: v)) i) = Rabs (vv (a :: v) i)).
      { intros i Hi. rewrite vget_map_abs by exact Hi. apply (rg_abs _ _ _ _ _ _ G). apply F. exact Hi. }
      destruct (rg_max _ _ _ _ _ _ G (map (o_abs O) (a :: v))) as (F1 & F2 & i & F3 & F4).
      { rewrite Lm. cbn. lia. } { intros i Hi. apply EV. rewrite <- Lm. exact Hi. }
      split; [exact F1|]. rewrite Lm in F2, F3. apply Rle_antisym.
      + rewrite F4. destruct (EV i F3) as (_ & ->). apply (maxabs_ge (length (a :: v)) (vv (a :: v)) i F3).
      + apply maxabs_le; [rewrite F4; destruct (EV i F3) as (_ & ->); apply Rabs_pos|].
        intros j Hj. destruct (EV j Hj) as (_ & <-). apply F2. exact Hj.
  Qed.
  Lemma smax_fwd a b : fin a -> fin b -> fin (smax O a b) /\ val (smax O a b) = Rmax (val a) (val b).
  Proof.
    intros Fa Fb. unfold smax. destruct (o_ltb O a b) eqn:E.
    - apply (rd_ltb _ _ _ _ _ W) in E; auto. split; [exact Fb|]. rewrite Rmax_right; lra.
    - split; [exact Fa|]. rewrite Rmax_left; [reflexivity|]. destruct (Rle_dec (val b) (val a)); [assumption|].
      assert (X : o_ltb O a b = true) by (apply (rd_ltb _ _ _ _ _ W); auto; lra). congruence.
  Qed.

  (* ---- an inner product with a vector that was computed ---- *)
  Definition dk (k n : nat) : nat := (k + (n + 1))%nat.
  Lemma dot_terms w x (c : nat -> R) n k C : length w = n ->
    0 <= C -> (forall i, (i < n)%nat -> nr k C (Rabs (c i)) (vg w i) (c i)) ->
    rsum n (fun i => Rabs (vv w i * vv x i)) <=
      (1 + u) ^ k * (rsum n (fun i => Rabs (c i * vv x i)) + C * norm1 n (vv x) * eta) /\
    rsum n (fun i => Rabs (vv w i * vv x i - c i * vv x i)) <=
      ((1 + u) ^ k - 1) * rsum n (fun i => Rabs (c i * vv x i)) + (1 + u) ^ k * (C * norm1 n (vv x)) * eta.
  Proof.
    intros Lw HC N. unfold norm1. pose proof (rd_eta _ _ _ _ _ W) as He. split.
    - replace (rsum n (fun i => Rabs (c i * vv x i)) + C * rsum n (fun i => Rabs (vv x i)) * eta) with
        (rsum n (fun i => (Rabs (c i) + C * eta) * Rabs (vv x i))).
      + rewrite <- rsum_scal. apply rsum_le. intros i Hi. cbv beta. rewrite Rabs_mult, <- Rmult_assoc.
        apply Rmult_le_compat_r; [apply Rabs_pos|]. apply (near_abs W _ _ _ _ _ (N i Hi)).
      + rewrite (rsum_ext n _ (fun i => Rabs (c i * vv x i) + (C * eta) * Rabs (vv x i))) by (intros i Hi; cbv beta; rewrite Rabs_mult; ring).
        rewrite rsum_add, rsum_scal. ring.
    - replace (((1 + u) ^ k - 1) * rsum n (fun i => Rabs (c i * vv x i)) + (1 + u) ^ k * (C * rsum n (fun i => Rabs (vv x i))) * eta) with
        (rsum n (fun i => (((1 + u) ^ k - 1) * Rabs (c i) + (1 + u) ^ k * C * eta) * Rabs (vv x i))).
      + apply rsum_le. intros i Hi. cbv beta. replace (vv w i * vv x i - c i * vv x i) with ((vv w i - c i) * vv x i) by ring.
        rewrite Rabs_mult. apply Rmult_le_compat_r; [apply Rabs_pos|]. apply (N i Hi).
      + rewrite (rsum_ext n _ (fun i => ((1 + u) ^ k - 1) * Rabs (c i * vv x i) + ((1 + u) ^ k * C * eta) * Rabs (vv x i))) by (intros i Hi; cbv beta; rewrite Rabs_mult; ring).
        rewrite rsum_add, !rsum_scal. ring.
  Qed.
  Lemma dot_fwd w x (c : nat -> R) n k C : length w = n -> length x = n -> fins O fin n w -> fins O fin n x -> 0 <= C ->
    (forall i, (i < n)%nat -> nr k C (Rabs (c i)) (vg w i) (c i)) ->
    safe (dk k n) (C * norm1 n (vv x) + 2 * INR n) (rsum n (fun i => Rabs (c i * vv x i))) ->
    fin (vdot O w x) /\
    nr (dk k n) (C * norm1 n (vv x) + 2 * INR n) (rsum n (fun i => Rabs (c i * vv x i))) (vdot O w x) (rsum n (fun i => c i * vv x i)).
  Proof.
    intros Lw Lx Fw Fx HC N S. unfold vdot. destruct (dot_terms w x c n k C Lw HC N) as (T1 & T2).
    pose proof (rd_eta _ _ _ _ _ W) as He. pose proof (pos_INR n) as In.
    pose proof (pw_ge1 W k) as Pk. pose proof (pw_ge1 W (n + 1)) as Pn.
    assert (PW : (1 + u) ^ (dk k n) = (1 + u) ^ (n + 1) * (1 + u) ^ k) by (unfold dk; rewrite pow_add; ring).
    assert (S0 : 0 <= rsum n (fun i => Rabs (c i * vv x i))) by apply rsum_abs_pos.
    assert (N0 : 0 <= norm1 n (vv x)) by (apply rsum_abs_pos).
    set (S1 := rsum n (fun i => Rabs (c i * vv x i))) in *. set (X1 := norm1 n (vv x)) in *.
    set (w1 := (1 + u) ^ (n + 1)) in *. set (wk := (1 + u) ^ k) in *.
    assert (CX : 0 <= C * X1 * eta) by (apply Rmult_le_pos; [apply Rmult_le_pos|]; assumption).
    assert (NE : 0 <= 2 * INR n * eta) by (apply Rmult_le_pos; lra).
    assert (F : fin (o_dot O w x)).
    { apply (rg_dot _ _ _ _ _ _ G); rewrite Lw.
      - congruence.
      - intros i Hi. split; [apply Fw|apply Fx]; exact Hi.
      - unfold FwdFloat.safe in S. rewrite PW in S. fold w1. eapply Rle_trans; [|exact S].
        rewrite (Rmult_assoc w1 wk). apply Rmult_le_compat_l; [lra|].
        assert (X : 1 * (2 * INR n * eta) <= wk * (2 * INR n * eta)) by (apply Rmult_le_compat_r; lra). nra. }
    split; [exact F|]. destruct (near_dot W w x ltac:(congruence) F) as (_ & D). rewrite Lw in D. fold w1 in D.
    split; [apply rsum_abs|]. rewrite PW.
    set (Sw := rsum n (fun i => vv w i * vv x i)) in *. set (Sc := rsum n (fun i => c i * vv x i)) in *.
    assert (E : Rabs (Sw - Sc) <= (wk - 1) * S1 + wk * (C * X1) * eta).
    { replace (Sw - Sc) with (rsum n (fun i => vv w i * vv x i - c i * vv x i)) by (unfold Sw, Sc, Rminus; rewrite rsum_add, rsum_opp; reflexivity). eapply Rle_trans; [apply rsum_abs|]. exact T2. }
    replace (val (o_dot O w x) - Sc) with ((val (o_dot O w x) - Sw) + (Sw - Sc)) by ring.
    eapply Rle_trans; [apply Rabs_triang|].
    set (A := rsum n (fun i => Rabs (vv w i * vv x i))) in *.
    assert (X1' : (w1 - 1) * A <= (w1 - 1) * (wk * (S1 + C * X1 * eta))) by (apply Rmult_le_compat_l; lra).
    assert (X2' : w1 * (2 * INR n) * eta <= w1 * wk * (2 * INR n) * eta).
    { replace (w1 * (2 * INR n) * eta) with (w1 * (1 * (2 * INR n * eta))) by ring.
      replace (w1 * wk * (2 * INR n) * eta) with (w1 * (wk * (2 * INR n * eta))) by ring.
      apply Rmult_le_compat_l; [lra|]. apply Rmult_le_compat_r; lra. }
    nra.
  Qed.

  (* comparing with tol * s *)
  Lemma scaled_fwd tol s : fin tol -> fin s -> 0 <= val tol -> 0 <= val s -> val tol * val s <= big ->
    fin (o_mul O tol s) /\ val (o_mul O tol s) <= (1 + u) * (val tol * val s) + eta.
  Proof.
    intros Ft Fs Ht Hs Hb. assert (P0 : 0 <= val tol * val s) by (apply Rmult_le_pos; assumption).
    assert (F : fin (o_mul O tol s)) by (apply (rg_mul _ _ _ _ _ _ G); auto; rewrite Rabs_pos_eq; assumption).
    split; [exact F|]. destruct (rd_mul _ _ _ _ _ W _ _ F) as (_ & _ & E). rewrite (Rabs_pos_eq (_ * _)) in E by exact P0.
    pose proof (Rle_abs (val (o_mul O tol s) - val tol * val s)). lra.
  Qed.
  Lemma scaled_fwd' tol s : fin tol -> fin s -> 0 <= val tol -> 0 <= val s -> val tol * val s <= big ->
    fin (o_mul O s tol) /\ val (o_mul O s tol) <= (1 + u) * (val tol * val s) + eta.
  Proof.
    intros Ft Fs Ht Hs Hb. assert (P0 : 0 <= val tol * val s) by (apply Rmult_le_pos; assumption).
    assert (F : fin (o_mul O s tol)) by (apply (rg_mul _ _ _ _ _ _ G); auto; rewrite (Rmult_comm (val s)), Rabs_pos_eq; assumption).
    split; [exact F|]. destruct (rd_mul _ _ _ _ _ W _ _ F) as (_ & _ & E). rewrite (Rmult_comm (val s)), (Rabs_pos_eq (_ * _)) in E by exact P0.
    pose proof (Rle_abs (val (o_mul O s tol) - val tol * val s)). lra.
  Qed.

  (* ---- the test ---- *)
  Section Test.
    Context {D : Type} (DI : DataI T D) (d : D) (P : QP) (K : nat) (C : R) (stale : vec T -> Prop) (M g : R).
    Hypothesis IR : InRange (O:=O) (fin:=fin) (val:=val) (u:=u) (eta:=eta) (big:=big) DI d P K C stale.
    Notation nz := (n_z P). Notation nl := (n_l P). Notation nv := (n_v P).
    Hypothesis DK : DataOk DI d nz nl nv.
    Hypothesis HC : 0 <= C <= 2 * INR K.
    Hypothesis HK : (nz + nl + nv + 4 <= 4 * K)%nat.
    Hypothesis HK2 : (nl + nv + 3 <= K)%nat.
    Hypothesis HK3 : (nz + 2 <= K)%nat.
    Hypothesis Hg : (1 + u) ^ (4 * K) <= 1 + g.
    Hypothesis Hg8 : g <= 1 / 8.
    Hypothesis M1 : 1 <= M.
    Hypothesis MB : 2 * M <= big.
    Hypothesis KE : INR K * eta <= 1 / 16.

    Lemma pw_g k : (k <= 4 * K)%nat -> 1 <= (1 + u) ^ k <= 1 + g.
    Proof. intro H. pose proof (pw_mono W k (4 * K) H). pose proof (pw_ge1 W k). lra. Qed.
    Lemma g_pos : 0 <= g.
    Proof. pose proof (pw_g 0 ltac:(lia)). lra. Qed.
    (* c * eta is at most (1 + s)/4 *)
    Lemma safe_mod k c m s : (k <= 4 * K)%nat -> 0 <= c <= 4 * INR K * (1 + s) -> 0 <= s <= M -> 0 <= m <= M -> safe k c m.
    Proof.
      intros Hk Hc Hs Hm. unfold FwdFloat.safe. destruct (pw_g k Hk) as (P1 & P2). pose proof (rd_eta _ _ _ _ _ W) as He.
      assert (CE : c * eta <= 4 * (INR K * eta) * (1 + s)).
      { replace (4 * (INR K * eta) * (1 + s)) with ((4 * INR K * (1 + s)) * eta) by ring. apply Rmult_le_compat_r; lra. }
      assert (CE0 : 0 <= c * eta) by (apply Rmult_le_pos; lra).
      assert (KE0 : 0 <= INR K * eta) by (apply Rmult_le_pos; [apply pos_INR|assumption]).
      assert (CE2 : 4 * (INR K * eta) * (1 + s) <= (1 + s) / 4) by nra.
      assert (X : (1 + u) ^ k * (m + c * eta) <= (9 / 8) * (M + (1 + M) / 4)) by (apply Rmult_le_compat; lra). lra.
    Qed.
    Lemma near_err k c m a t : (k <= 4 * K)%nat -> 0 <= c -> nr k c m a t -> Rabs t <= Rabs (val a) + g * m + (1 + g) * c * eta.
    Proof.
      intros Hk Hc (N1 & N2). destruct (pw_g k Hk) as (P1 & P2). pose proof (rd_eta _ _ _ _ _ W) as He. pose proof (Rabs_pos t).
      assert (E1 : ((1 + u) ^ k - 1) * m <= g * m) by (apply Rmult_le_compat_r; lra).
      assert (E2 : (1 + u) ^ k * c * eta <= (1 + g) * c * eta) by (apply Rmult_le_compat_r; [lra|]; apply Rmult_le_compat_r; lra).
      replace t with (val a - (val a - t)) at 1 by ring. eapply Rle_trans; [apply Rabs_triang|]. rewrite Rabs_Ropp. lra.
    Qed.
    Lemma near_upper k c m a t : (k <= 4 * K)%nat -> 0 <= c -> nr k c m a t -> t <= val a + g * m + (1 + g) * c * eta.
    Proof.
      intros Hk Hc (N1 & N2). destruct (pw_g k Hk) as (P1 & P2). pose proof (rd_eta _ _ _ _ _ W) as He. pose proof (Rabs_pos t).
      assert (E1 : ((1 + u) ^ k - 1) * m <= g * m) by (apply Rmult_le_compat_r; lra).
      assert (E2 : (1 + u) ^ k * c * eta <= (1 + g) * c * eta) by (apply Rmult_le_compat_r; [lra|]; apply Rmult_le_compat_r; lra).
      pose proof (Rle_abs (- (val a - t))) as X. rewrite Rabs_Ropp in X. lra.
    Qed.
    Lemma IK_ge : 1 <= INR K.
    Proof. assert (L : (1 <= K)%nat) by lia. apply le_INR in L. cbn in L. lra. Qed.

    Variables (tz tl tv : vec T) (tol : T) (x : var T).
    Hypothesis VO : var_ok nz nl nv x.
    Hypothesis Lz : length tz = nz.
    Hypothesis Ll : length tl = nl.
    Hypothesis Lv : length tv = nv.
    Hypothesis Ft : fin tol.
    Hypothesis Ht : 0 <= val tol.

    (* the run of the test, with its intermediate vectors *)
    Lemma test_run fs : feasibility_test O DI d nz nl nv tz tl tv tol x = Ok fs ->
      (0 < nv)%nat /\ exists a1 g1 h1 f1 t1 t2 b1 c1,
        di_gemvA DI d (v_z x) (o_one O) (o_zero O) tv = Ok a1 /\ length a1 = nv /\
        di_gemvG DI d (v_z x) (o_one O) (o_zero O) tl = Ok g1 /\ length g1 = nl /\
        di_gemvH DI d (v_z x) (o_one O) (o_zero O) tz = Ok h1 /\ length h1 = nz /\
        di_axpyf DI d (o_one O) (vconst nz (o_zero O)) = Ok f1 /\ length f1 = nz /\
        di_gemvAT DI d (v_v x) (o_one O) (o_one O) (vconst nz (o_zero O)) = Ok t1 /\ length t1 = nz /\
        di_gemvGT DI d (v_l x) (o_one O) (o_one O) t1 = Ok t2 /\ length t2 = nz /\
        di_axpyb DI d (o_one O) (vconst nv (o_zero O)) = Ok b1 /\ length b1 = nv /\
        di_axpyh DI d (o_one O) (vconst nl (o_zero O)) = Ok c1 /\ length c1 = nl /\
        let wn := vinf O (v_z x) in
        let dbad := o_leb O (o_maxc O a1) (o_mul O wn tol) && o_leb O (vinf O g1) (o_mul O tol wn) && o_leb O (vinf O h1) (o_mul O tol wn) &&
            o_ltb O (vdot O f1 (v_z x)) (o_zero O) && o_ltb O (o_dec O 1 (-14)) wn in
        let pbad := o_leb O (vinf O t2) (o_mul O tol (smax O (vinf O (v_v x)) (vinf O (v_l x)))) &&
            o_ltb O (o_add O (vdot O c1 (v_l x)) (vdot O b1 (v_v x))) (o_zero O) in
        (fs = FS_PRIMAL \/ fs = FS_BOTH -> pbad = true) /\ (fs = FS_DUAL \/ fs = FS_BOTH -> dbad = true).
    Proof.
      destruct VO as (Vz & Vl & Vv & _). unfold feasibility_test, ff_check.
      cbn [deref_checked ff_data rbind at_point fv_x ff_tv ff_tl ff_tz ff_nz ff_nl ff_nv].
      destruct (dk_A _ _ _ _ _ DK (v_z x) (o_one O) (o_zero O) tv Vz Lv) as (a1 & A1 & A2). rewrite A1. cbn [rbind].
      rewrite A2. destruct (Nat.ltb_spec 0 nv) as [Pv|]; cbn [ub_unless rbind]; [|discriminate].
      destruct (dk_G _ _ _ _ _ DK (v_z x) (o_one O) (o_zero O) tl Vz Ll) as (g1 & G1 & G2). rewrite G1. cbn [rbind].
      destruct (dk_H _ _ _ _ _ DK (v_z x) (o_one O) (o_zero O) tz Vz Lz) as (h1 & H1 & H2). rewrite H1. cbn [rbind]. rewrite H2.
      destruct (dk_f _ _ _ _ _ DK (o_one O) (vconst nz (o_zero O)) (vconst_len _ _)) as (f1 & F1 & F2). rewrite F1. cbn [rbind].
      rewrite F2, Vz, Nat.eqb_refl. cbn [ub_unless rbind].
      destruct (dk_AT _ _ _ _ _ DK (v_v x) (o_one O) (o_one O) (vconst nz (o_zero O)) Vv (vconst_len _ _)) as (t1 & T1 & T2). rewrite T1. cbn [rbind].
      destruct (dk_GT _ _ _ _ _ DK (v_l x) (o_one O) (o_one O) t1 Vl T2) as (t2 & U1 & U2). rewrite U1. cbn [rbind].
      destruct (dk_b _ _ _ _ _ DK (o_one O) (vconst nv (o_zero O)) (vconst_len _ _)) as (b1 & B1 & B2). rewrite B1. cbn [rbind]. rewrite G2.
      destruct (dk_h _ _ _ _ _ DK (o_one O) (vconst nl (o_zero O)) (vconst_len _ _)) as (c1 & C1 & C2). rewrite C1. cbn [rbind].
      rewrite C2, Vl, B2, Vv, !Nat.eqb_refl. cbn [andb ub_unless rbind]. intro E. injection E as <-.
      split; [exact Pv|]. exists a1, g1, h1, f1, t1, t2, b1, c1. repeat (split; [first [assumption|reflexivity]|]). cbv zeta. cbn [snd].
      set (pbad := o_leb O (vinf O t2) _ && _). set (dbad := _ && o_ltb O (o_dec O 1 (-14)) _).
      destruct pbad, dbad; cbn; split; intros [H|H]; try reflexivity; discriminate.
    Qed.

    Lemma nr_zero n i : (i < n)%nat -> fin (vg (vconst n (o_zero O)) i) /\ nr 0 0 0 (vg (vconst n (o_zero O)) i) 0.
    Proof.
      intro Hi. unfold vconst. rewrite (vget_tab O) by exact Hi. destruct (rd_zero _ _ _ _ _ W) as (F0 & V0). split; [exact F0|].
      split; [rewrite Rabs_R0; lra|]. rewrite V0, Rminus_0_r, Rabs_R0. lra.
    Qed.

    Theorem primal_test fs : feasibility_test O DI d nz nl nv tz tl tv tol x = Ok fs -> fs = FS_PRIMAL \/ fs = FS_BOTH ->
      fins O fin nl (v_l x) -> fins O fin nv (v_v x) ->
      moderate_multipliers P M (val tol) (vv (v_l x)) (vv (v_v x)) ->
      primal_ray P K g eta (val tol) (vv (v_l x)) (vv (v_v x)).
    Proof.
      intros E Hfs Fl Fv MM. destruct (test_run fs E) as (Pv & a1 & g1 & h1 & f1 & t1 & t2 & b1 & c1 & _ & _ & _ & _ & _ & _ & _ & _ &
        ET1 & LT1 & ET2 & LT2 & EB & LB & EC & LC & HP & _). specialize (HP Hfs). apply andb_true_iff in HP. destruct HP as [HP1 HP2].
      destruct VO as (Vz & Vl & Vv & _). destruct MM as [Mr Mh Mb Mv Ms Mt].
      pose proof g_pos as G0. pose proof IK_ge as IK1. pose proof (rd_eta _ _ _ _ _ W) as He. pose proof (rd_u _ _ _ _ _ W) as Hu.
      assert (U1 : u <= g) by (destruct (pw_g 1 ltac:(lia)); rewrite pow_1 in *; lra).
      assert (N1l : 0 <= norm1 nl (vv (v_l x))) by apply rsum_abs_pos. assert (N1v : 0 <= norm1 nv (vv (v_v x))) by apply rsum_abs_pos.
      (* A'v + G'l *)
      assert (ROW : forall i, (i < nz)%nat -> fin (vg t2 i) /\ nr (0 + K + K) (0 + C + C) (ray_terms P (vv (v_l x)) (vv (v_v x)) i) (vg t2 i)
          (ttimes nl (cG P) (vv (v_l x)) i + ttimes nv (cA P) (vv (v_v x)) i)).
      { destruct (ir_AT _ _ _ _ _ _ IR (v_v x) (vconst nz (o_zero O)) Vv (vconst_len _ _) Fv) as (t1' & ET1' & _ & Q1). rewrite ET1 in ET1'. injection ET1' as <-.
        destruct (ir_GT _ _ _ _ _ _ IR (v_l x) t1 Vl LT1 Fl) as (t2' & ET2' & _ & Q2). rewrite ET2 in ET2'. injection ET2' as <-.
        intros i Hi. destruct (nr_zero nz i Hi) as (FZ & NZ). specialize (Mr i Hi). unfold ray_terms in Mr |- *.
        pose proof (rsum_abs_pos nl (fun j => cG P j i * vv (v_l x) j)) as S1. pose proof (rsum_abs_pos nv (fun j => cA P j i * vv (v_v x) j)) as S2.
        destruct (Q1 i Hi FZ 0%nat 0 0 0 (Rle_refl 0) NZ) as (Fq & Nq).
        { apply (safe_mod _ _ _ 0); [lia|lra|lra|lra]. }
        assert (C0 : 0 <= 0 + C) by lra.
        destruct (Q2 i Hi Fq (0 + K)%nat (0 + C) _ _ C0 Nq) as (Fr & Nr).
        { apply (safe_mod _ _ _ 0); [lia|lra|lra|lra]. }
        split; [exact Fr|].
        replace (rsum nl (fun j => Rabs (cG P j i * vv (v_l x) j)) + rsum nv (fun j => Rabs (cA P j i * vv (v_v x) j))) with
          (0 + rsum nv (fun j => Rabs (cA P j i * vv (v_v x) j)) + rsum nl (fun j => Rabs (cG P j i * vv (v_l x) j))) by ring.
        replace (ttimes nl (cG P) (vv (v_l x)) i + ttimes nv (cA P) (vv (v_v x)) i) with
          (0 + ttimes nv (cA P) (vv (v_v x)) i + ttimes nl (cG P) (vv (v_l x)) i) by ring. exact Nr. }
      (* the right-hand side *)
      destruct (vinf_fwd (v_v x) nv Vv Fv) as (Fi1 & Ei1). destruct (vinf_fwd (v_l x) nl Vl Fl) as (Fi2 & Ei2).
      destruct (smax_fwd _ _ Fi1 Fi2) as (Fm & Em). rewrite Ei1, Ei2 in Em.
      set (mx := Rmax (maxabs nv (vv (v_v x))) (maxabs nl (vv (v_l x)))) in *.
      assert (MX : 0 <= mx) by (eapply Rle_trans; [apply (maxabs_nonneg nv (vv (v_v x)))|apply Rmax_l]).
      destruct (scaled_fwd tol _ Ft Fm Ht ltac:(rewrite Em; exact MX) ltac:(rewrite Em; lra)) as (Fts & Ets). rewrite Em in Ets.
      destruct (vinf_fwd t2 nz LT2 (fun i Hi => proj1 (ROW i Hi))) as (Fi3 & Ei3).
      apply (rd_leb _ _ _ _ _ W) in HP1; [|assumption|assumption]. rewrite Ei3 in HP1.
      constructor.
      - intros i Hi. destruct (ROW i Hi) as (_ & N). assert (C0 : 0 <= 0 + C + C) by lra.
        pose proof (near_err (0 + K + K) _ _ _ _ ltac:(lia) C0 N) as X. pose proof (maxabs_ge nz (vv t2) i Hi) as X2. cbv beta in X2.
        assert (TM : 0 <= val tol * mx) by (apply Rmult_le_pos; assumption).
        assert (Y1 : (1 + u) * (val tol * mx) <= (1 + g) * (val tol * mx)) by (apply Rmult_le_compat_r; lra).
        assert (Y2 : (1 + g) * (0 + C + C) * eta <= (9 / 8) * (4 * INR K) * eta) by (apply Rmult_le_compat_r; [lra|]; apply Rmult_le_compat; lra).
        assert (Y3 : 1 * eta <= INR K * eta) by (apply Rmult_le_compat_r; lra). fold mx. unfold rbound. lra.
      - (* h'l + b'v *)
        destruct (ir_h _ _ _ _ _ _ IR) as (c1' & EC' & _ & QC). rewrite EC in EC'. injection EC' as <-.
        destruct (ir_b _ _ _ _ _ _ IR) as (b1' & EB' & _ & QB). rewrite EB in EB'. injection EB' as <-.
        assert (QC' : forall i, (i < nl)%nat -> fin (vg c1 i) /\ nr K C (Rabs (ch P i)) (vg c1 i) (ch P i)).
        { intros i Hi. apply QC; [exact Hi|]. apply (safe_mod _ _ _ 0); [lia|lra|lra|]. split; [apply Rabs_pos|apply Mh; exact Hi]. }
        assert (QB' : forall i, (i < nv)%nat -> fin (vg b1 i) /\ nr K C (Rabs (cb P i)) (vg b1 i) (cb P i)).
        { intros i Hi. apply QB; [exact Hi|]. apply (safe_mod _ _ _ 0); [lia|lra|lra|]. split; [apply Rabs_pos|apply Mb; exact Hi]. }
        unfold value_terms in *.
        pose proof (rsum_abs_pos nl (fun k => ch P k * vv (v_l x) k)) as S1. pose proof (rsum_abs_pos nv (fun k => cb P k * vv (v_v x) k)) as S2.
        set (Sl := rsum nl (fun k => Rabs (ch P k * vv (v_l x) k))) in *. set (Sv := rsum nv (fun k => Rabs (cb P k * vv (v_v x) k))) in *.
        set (L1 := norm1 nl (vv (v_l x))) in *. set (V1 := norm1 nv (vv (v_v x))) in *.
        assert (CL : C * L1 <= 2 * INR K * L1) by (apply Rmult_le_compat_r; lra). assert (CV : C * V1 <= 2 * INR K * V1) by (apply Rmult_le_compat_r; lra).
        assert (CL0 : 0 <= C * L1) by (apply Rmult_le_pos; lra). assert (CV0 : 0 <= C * V1) by (apply Rmult_le_pos; lra).
        assert (KL0 : 0 <= INR K * L1) by (apply Rmult_le_pos; lra). assert (KV0 : 0 <= INR K * V1) by (apply Rmult_le_pos; lra).
        assert (NN : 2 * INR nl + 2 * INR nv + 1 <= 2 * INR K).
        { pose proof HK2 as X. apply le_INR in X. rewrite !plus_INR in X. cbn [INR] in X. lra. }
        pose proof (pos_INR nl) as P1. pose proof (pos_INR nv) as P2.
        destruct (dot_fwd c1 (v_l x) (ch P) nl K C LC Vl (fun i Hi => proj1 (QC' i Hi)) Fl (proj1 HC) (fun i Hi => proj2 (QC' i Hi))) as (Fd1 & Nd1).
        { apply (safe_mod _ _ _ L1); [unfold dk; lia|fold L1; lra|lra|fold Sl; lra]. }
        destruct (dot_fwd b1 (v_v x) (cb P) nv K C LB Vv (fun i Hi => proj1 (QB' i Hi)) Fv (proj1 HC) (fun i Hi => proj2 (QB' i Hi))) as (Fd2 & Nd2).
        { apply (safe_mod _ _ _ V1); [unfold dk; lia|fold V1; lra|lra|fold Sv; lra]. }
        fold L1 Sl in Nd1. fold V1 Sv in Nd2.
        assert (Nd1' : nr (2 * K) (C * L1 + 2 * INR nl) Sl (vdot O c1 (v_l x)) (rsum nl (fun k => ch P k * vv (v_l x) k)))
          by (eapply (near_weaken W); [exact Nd1|unfold dk; lia|lra|lra]).
        assert (Nd2' : nr (2 * K) (C * V1 + 2 * INR nv) Sv (vdot O b1 (v_v x)) (rsum nv (fun k => cb P k * vv (v_v x) k)))
          by (eapply (near_weaken W); [exact Nd2|unfold dk; lia|lra|lra]).
        assert (Fp : fin (o_add O (vdot O c1 (v_l x)) (vdot O b1 (v_v x)))).
        { apply (fadd W G _ _ _ _ _ _ _ _ _ Nd1' Nd2'); auto. apply (safe_mod _ _ _ (L1 + V1)); [lia|lra|lra|lra]. }
        assert (C1 : 0 <= C * L1 + 2 * INR nl) by lra. assert (C2 : 0 <= C * V1 + 2 * INR nv) by lra.
        pose proof (near_add W _ _ _ _ _ _ _ _ _ C1 C2 Fp Nd1' Nd2') as NS.
        assert (C3 : 0 <= C * L1 + 2 * INR nl + (C * V1 + 2 * INR nv) + 1) by lra.
        pose proof (near_upper (2 * K + 1) _ _ _ _ ltac:(lia) C3 NS) as X.
        destruct (rd_zero _ _ _ _ _ W) as (F0 & V0).
        apply (rd_ltb _ _ _ _ _ W) in HP2; [|exact Fp|exact F0]. rewrite V0 in HP2. unfold dual_value.
        assert (Y : (1 + g) * (C * L1 + 2 * INR nl + (C * V1 + 2 * INR nv) + 1) * eta <= 4 * INR K * eta * (1 + L1 + V1)).
        { replace (4 * INR K * eta * (1 + L1 + V1)) with ((2 * (2 * INR K * (1 + L1 + V1))) * eta) by ring.
          apply Rmult_le_compat_r; [exact He|]. apply Rmult_le_compat; lra. }
        lra.
    Qed.

    Theorem dual_test fs : feasibility_test O DI d nz nl nv tz tl tv tol x = Ok fs -> fs = FS_DUAL \/ fs = FS_BOTH ->
      fins O fin nz (v_z x) -> stale tz -> stale tl -> stale tv -> fin (o_dec O 1 (-14)) ->
      moderate_direction P M (val tol) (vv (v_z x)) ->
      dual_ray P K g eta (val tol) (val (o_dec O 1 (-14))) (vv (v_z x)).
    Proof.
      intros E Hfs Fz Sz Sl Sv Fd MM. destruct (test_run fs E) as (Pv & a1 & g1 & h1 & f1 & t1 & t2 & b1 & c1 & EA & LA & EG & LG & EH & LH & EF & LF &
        _ & _ & _ & _ & _ & _ & _ & _ & _ & HD). specialize (HD Hfs). rewrite !andb_true_iff in HD. destruct HD as ((((D1 & D2) & D3) & D4) & D5).
      destruct VO as (Vz & Vl & Vv & _). destruct MM as [Ma Mg Mh Mf Mv Ms Mt].
      pose proof g_pos as G0. pose proof IK_ge as IK1. pose proof (rd_eta _ _ _ _ _ W) as He. pose proof (rd_u _ _ _ _ _ W) as Hu.
      assert (U1 : u <= g) by (destruct (pw_g 1 ltac:(lia)); rewrite pow_1 in *; lra).
      assert (N1z : 0 <= norm1 nz (vv (v_z x))) by apply rsum_abs_pos.
      assert (RA : forall i, (i < nv)%nat -> fin (vg a1 i) /\ nr K C (rsum nz (fun j => Rabs (cA P i j * vv (v_z x) j))) (vg a1 i) (times nz (cA P) (vv (v_z x)) i)).
      { destruct (ir_A _ _ _ _ _ _ IR (v_z x) tv Vz Lv Fz Sv) as (q & EQ & _ & Q). rewrite EA in EQ. injection EQ as <-.
        intros i Hi. apply (Q i Hi). apply (safe_mod _ _ _ 0); [lia|lra|lra|]. split; [apply rsum_abs_pos|apply Ma; exact Hi]. }
      assert (RG : forall i, (i < nl)%nat -> fin (vg g1 i) /\ nr K C (rsum nz (fun j => Rabs (cG P i j * vv (v_z x) j))) (vg g1 i) (times nz (cG P) (vv (v_z x)) i)).
      { destruct (ir_G _ _ _ _ _ _ IR (v_z x) tl Vz Ll Fz Sl) as (q & EQ & _ & Q). rewrite EG in EQ. injection EQ as <-.
        intros i Hi. apply (Q i Hi). apply (safe_mod _ _ _ 0); [lia|lra|lra|]. split; [apply rsum_abs_pos|apply Mg; exact Hi]. }
      assert (RH : forall i, (i < nz)%nat -> fin (vg h1 i) /\ nr K C (rsum nz (fun j => Rabs (cH P i j * vv (v_z x) j))) (vg h1 i) (times nz (cH P) (vv (v_z x)) i)).
      { destruct (ir_H _ _ _ _ _ _ IR (v_z x) tz Vz Lz Fz Sz) as (q & EQ & _ & Q). rewrite EH in EQ. injection EQ as <-.
        intros i Hi. apply (Q i Hi). apply (safe_mod _ _ _ 0); [lia|lra|lra|]. split; [apply rsum_abs_pos|apply Mh; exact Hi]. }
      destruct (vinf_fwd (v_z x) nz Vz Fz) as (Fw & Ew). set (mx := maxabs nz (vv (v_z x))) in *.
      assert (MX : 0 <= mx) by apply maxabs_nonneg. assert (TM : 0 <= val tol * mx) by (apply Rmult_le_pos; assumption).
      destruct (scaled_fwd tol _ Ft Fw Ht ltac:(rewrite Ew; exact MX) ltac:(rewrite Ew; lra)) as (Fts & Ets). rewrite Ew in Ets.
      destruct (scaled_fwd' tol _ Ft Fw Ht ltac:(rewrite Ew; exact MX) ltac:(rewrite Ew; lra)) as (Fts' & Ets'). rewrite Ew in Ets'.
      destruct (rg_max _ _ _ _ _ _ G a1 ltac:(lia) ltac:(rewrite LA; intros i Hi; apply RA; exact Hi)) as (Fa & Ba & _). rewrite LA in Ba.
      destruct (vinf_fwd g1 nl LG (fun i Hi => proj1 (RG i Hi))) as (Fig & Eig).
      destruct (vinf_fwd h1 nz LH (fun i Hi => proj1 (RH i Hi))) as (Fih & Eih).
      apply (rd_leb _ _ _ _ _ W) in D1; [|assumption|assumption]. apply (rd_leb _ _ _ _ _ W) in D2; [|assumption|assumption]. apply (rd_leb _ _ _ _ _ W) in D3; [|assumption|assumption].
      apply (rd_ltb _ _ _ _ _ W) in D5; [|assumption|assumption]. rewrite Ew in D5. rewrite Eig in D2. rewrite Eih in D3.
      assert (Y1 : (1 + u) * (val tol * mx) <= (1 + g) * (val tol * mx)) by (apply Rmult_le_compat_r; lra).
      assert (Y2 : (1 + g) * C * eta <= (9 / 8) * (2 * INR K) * eta) by (apply Rmult_le_compat_r; [lra|]; apply Rmult_le_compat; lra).
      assert (Y3 : 1 * eta <= INR K * eta) by (apply Rmult_le_compat_r; lra).
      constructor; unfold rbound; fold mx.
      - intros i Hi. destruct (RA i Hi) as (_ & N). pose proof (near_upper K _ _ _ _ ltac:(lia) (proj1 HC) N) as X. pose proof (Ba i Hi) as X2. lra.
      - intros i Hi. destruct (RG i Hi) as (_ & N). pose proof (near_err K _ _ _ _ ltac:(lia) (proj1 HC) N) as X. pose proof (maxabs_ge nl (vv g1) i Hi) as X2. cbv beta in X2. lra.
      - intros i Hi. destruct (RH i Hi) as (_ & N). pose proof (near_err K _ _ _ _ ltac:(lia) (proj1 HC) N) as X. pose proof (maxabs_ge nz (vv h1) i Hi) as X2. cbv beta in X2. lra.
      - destruct (ir_f _ _ _ _ _ _ IR) as (f1' & EF' & _ & QF). rewrite EF in EF'. injection EF' as <-.
        assert (QF' : forall i, (i < nz)%nat -> fin (vg f1 i) /\ nr K C (Rabs (cf P i)) (vg f1 i) (cf P i)).
        { intros i Hi. apply QF; [exact Hi|]. apply (safe_mod _ _ _ 0); [lia|lra|lra|]. split; [apply Rabs_pos|apply Mf; exact Hi]. }
        pose proof (rsum_abs_pos nz (fun k => cf P k * vv (v_z x) k)) as S1.
        set (Sf := rsum nz (fun k => Rabs (cf P k * vv (v_z x) k))) in *. set (L1 := norm1 nz (vv (v_z x))) in *.
        assert (CL : C * L1 <= 2 * INR K * L1) by (apply Rmult_le_compat_r; lra).
        assert (CL0 : 0 <= C * L1) by (apply Rmult_le_pos; lra). assert (KL0 : 0 <= INR K * L1) by (apply Rmult_le_pos; lra).
        assert (NN : 2 * INR nz <= 2 * INR K) by (pose proof (le_INR nz K ltac:(lia)); lra). pose proof (pos_INR nz) as P1.
        destruct (dot_fwd f1 (v_z x) (cf P) nz K C LF Vz (fun i Hi => proj1 (QF' i Hi)) Fz (proj1 HC) (fun i Hi => proj2 (QF' i Hi))) as (Fd1 & Nd1).
        { apply (safe_mod _ _ _ L1); [unfold dk; lia|fold L1; lra|lra|fold Sf; lra]. }
        fold L1 Sf in Nd1. assert (C1 : 0 <= C * L1 + 2 * INR nz) by lra.
        pose proof (near_upper (dk K nz) _ _ _ _ ltac:(unfold dk; lia) C1 Nd1) as X.
        destruct (rd_zero _ _ _ _ _ W) as (F0 & V0).
        apply (rd_ltb _ _ _ _ _ W) in D4; [|exact Fd1|exact F0]. rewrite V0 in D4.
        assert (Y : (1 + g) * (C * L1 + 2 * INR nz) * eta <= 4 * INR K * eta * (1 + L1)).
        { replace (4 * INR K * eta * (1 + L1)) with ((2 * (2 * INR K * (1 + L1))) * eta) by ring.
          apply Rmult_le_compat_r; [exact He|]. apply Rmult_le_compat; lra. }
        lra.
      - exact D5.
    Qed.
  End Test.
End FeasFloat.
