(* Rounded arithmetic without overflow: when all numbers that go into a product of the data classes are
   finite and small enough, so is what comes out.  (Rounding.v and FloatRes.v reason from finite results
   back to their operands; this file goes the other way.) *)
From Verif Require Export FloatRun.
Local Open Scope R_scope.

(* Results whose exact value is at most [big] do not overflow; maxCoeff of finite numbers is their maximum
   (nothing is said about NaNs).  As in Rounding.v the inner product may be summed in any order. *)
Record Ranged {T : Type} (O : Ops T) (fin : T -> Prop) (val : T -> R) (u eta big : R) : Prop := {
  rg_big : 1 <= big;
  rg_add : forall a b, fin a -> fin b -> Rabs (val a) + Rabs (val b) <= big -> fin (o_add O a b);
  rg_sub : forall a b, fin a -> fin b -> Rabs (val a) + Rabs (val b) <= big -> fin (o_sub O a b);
  rg_mul : forall a b, fin a -> fin b -> Rabs (val a * val b) <= big -> fin (o_mul O a b);
  rg_abs : forall a, fin a -> fin (o_abs O a) /\ val (o_abs O a) = Rabs (val a);
  rg_dot : forall x y, length x = length y ->
    (forall i, (i < length x)%nat -> fin (vget O x i) /\ fin (vget O y i)) ->
    (1 + u) ^ (length x + 1) *
      (rsum (length x) (fun i => Rabs (val (vget O x i) * val (vget O y i))) + 2 * INR (length x) * eta) <= big ->
    fin (o_dot O x y);
  rg_max : forall x, (0 < length x)%nat -> (forall i, (i < length x)%nat -> fin (vget O x i)) ->
    fin (o_maxc O x) /\ (forall i, (i < length x)%nat -> val (vget O x i) <= val (o_maxc O x)) /\
    exists i, (i < length x)%nat /\ val (o_maxc O x) = val (vget O x i) }.

Section Fwd.
  Context {T : Type} {O : Ops T} {fin : T -> Prop} {val : T -> R} {u eta big : R}.
  Hypothesis W : Rounded O fin val u eta.
  Hypothesis G : Ranged O fin val u eta big.
  Notation nr := (@near T val u eta).
  Notation vv := (fun x i => val (vget O x i)).
  Notation vg := (vget O).

  (* a sum of terms of total size m, after k roundings and c underflows, stays in range *)
  Definition safe (k : nat) (c m : R) : Prop := (1 + u) ^ k * (m + c * eta) <= big.
  Lemma safe_le k c m k' c' m' : safe k' c' m' -> (k <= k')%nat -> 0 <= c <= c' -> 0 <= m <= m' -> safe k c m.
  Proof.
    unfold safe. intros S Hk Hc Hm. pose proof (rd_eta _ _ _ _ _ W) as He. eapply Rle_trans; [|exact S].
    pose proof (pw_ge1 W k). pose proof (pw_mono W k k' Hk).
    assert (0 <= c * eta) by (apply Rmult_le_pos; lra). assert (c * eta <= c' * eta) by (apply Rmult_le_compat_r; lra).
    apply Rmult_le_compat; lra.
  Qed.
  Lemma near_abs k c m a x : nr k c m a x -> Rabs (val a) <= (1 + u) ^ k * (m + c * eta).
  Proof.
    intros [H1 H2]. replace (val a) with (x + (val a - x)) by ring. eapply Rle_trans; [apply Rabs_triang|].
    pose proof (pw_ge1 W k). nra.
  Qed.
  Lemma near_m k c m a x : nr k c m a x -> 0 <= m.
  Proof. intros [H _]. pose proof (Rabs_pos x). lra. Qed.

  Lemma fadd k c1 c2 m1 m2 a b x y : nr k c1 m1 a x -> nr k c2 m2 b y -> fin a -> fin b ->
    safe k (c1 + c2) (m1 + m2) -> fin (o_add O a b).
  Proof.
    intros N1 N2 Fa Fb S. apply (rg_add _ _ _ _ _ _ G); auto. apply near_abs in N1. apply near_abs in N2. unfold safe in S. lra.
  Qed.
  Lemma fsub k c1 c2 m1 m2 a b x y : nr k c1 m1 a x -> nr k c2 m2 b y -> fin a -> fin b ->
    safe k (c1 + c2) (m1 + m2) -> fin (o_sub O a b).
  Proof.
    intros N1 N2 Fa Fb S. apply (rg_sub _ _ _ _ _ _ G); auto. apply near_abs in N1. apply near_abs in N2. unfold safe in S. lra.
  Qed.
  Lemma funit k c m a b y s : nr k c m b y -> Rabs s = 1 -> val a = s -> fin a -> fin b -> safe k c m -> fin (o_mul O a b).
  Proof.
    intros N Hs Va Fa Fb S. apply (rg_mul _ _ _ _ _ _ G); auto. rewrite Rabs_mult, Va, Hs, Rmult_1_l.
    apply near_abs in N. unfold safe in S. lra.
  Qed.

  Definition mfin (M : mat T) (n m : nat) : Prop := forall i j, (i < n)%nat -> (j < m)%nat -> fin (mget O M i j).

  Lemma row_fwd M x i n m : mr M = n -> mc M = m -> length x = m -> (i < n)%nat -> mfin M n m -> fins O fin m x ->
    safe (m + 1) (2 * INR m) (rsum m (fun j => Rabs (val (mget O M i j) * vv x j))) -> fin (vg (mv O M x) i).
  Proof.
    intros Hr Hc Lx Hi FM Fx S. unfold mv. rewrite Hr, (vget_tab O) by exact Hi.
    assert (L : length (mrow O M i) = m) by (unfold mrow; rewrite tab_length; exact Hc).
    assert (E : forall j, (j < m)%nat -> vg (mrow O M i) j = mget O M i j).
    { intros j Hj. unfold mrow. rewrite Hc, (vget_tab O) by exact Hj. reflexivity. }
    apply (rg_dot _ _ _ _ _ _ G); rewrite L.
    - congruence.
    - intros j Hj. rewrite E by exact Hj. split; [apply FM; assumption|apply Fx; exact Hj].
    - rewrite (rsum_ext m _ (fun j => Rabs (val (mget O M i j) * vv x j))) by (intros j Hj; rewrite E by exact Hj; reflexivity). exact S.
  Qed.
  Lemma col_fwd M x i n m : mr M = n -> mc M = m -> length x = n -> (i < m)%nat -> mfin M n m -> fins O fin n x ->
    safe (n + 1) (2 * INR n) (rsum n (fun j => Rabs (val (mget O M j i) * vv x j))) -> fin (vg (mtv O M x) i).
  Proof.
    intros Hr Hc Lx Hi FM Fx S. unfold mtv. rewrite Hc, (vget_tab O) by exact Hi.
    assert (L : length (mcol O M i) = n) by (unfold mcol; rewrite tab_length; exact Hr).
    assert (E : forall j, (j < n)%nat -> vg (mcol O M i) j = mget O M j i).
    { intros j Hj. unfold mcol. rewrite Hr, (vget_tab O) by exact Hj. reflexivity. }
    apply (rg_dot _ _ _ _ _ _ G); rewrite L.
    - congruence.
    - intros j Hj. rewrite E by exact Hj. split; [apply FM; assumption|apply Fx; exact Hj].
    - rewrite (rsum_ext n _ (fun j => Rabs (val (mget O M j i) * vv x j))) by (intros j Hj; rewrite E by exact Hj; reflexivity). exact S.
  Qed.


  (* What a data class does with finite, moderate numbers, in the calls of the infeasibility test: a product
     adds the exact product to y (or overwrites y) and stays finite.  [stale y]: what the overwritten vector
     has to satisfy. *)
  Record InRange {D} (DI : DataI T D) (d : D) (P : QP) (K : nat) (C : R) (stale : vec T -> Prop) : Prop := {
    ir_AT : forall x y, length x = n_v P -> length y = n_z P -> fins O fin (n_v P) x -> exists r,
      di_gemvAT DI d x (o_one O) (o_one O) y = Ok r /\ length r = n_z P /\
      forall i, (i < n_z P)%nat -> fin (vg y i) -> forall k c m t, 0 <= c -> nr k c m (vg y i) t ->
        let m' := m + rsum (n_v P) (fun j => Rabs (cA P j i * vv x j)) in
        safe (k + K) (c + C) m' ->
        fin (vg r i) /\ nr (k + K) (c + C) m' (vg r i) (t + ttimes (n_v P) (cA P) (vv x) i);
    ir_GT : forall x y, length x = n_l P -> length y = n_z P -> fins O fin (n_l P) x -> exists r,
      di_gemvGT DI d x (o_one O) (o_one O) y = Ok r /\ length r = n_z P /\
      forall i, (i < n_z P)%nat -> fin (vg y i) -> forall k c m t, 0 <= c -> nr k c m (vg y i) t ->
        let m' := m + rsum (n_l P) (fun j => Rabs (cG P j i * vv x j)) in
        safe (k + K) (c + C) m' ->
        fin (vg r i) /\ nr (k + K) (c + C) m' (vg r i) (t + ttimes (n_l P) (cG P) (vv x) i);
    ir_H : forall x y, length x = n_z P -> length y = n_z P -> fins O fin (n_z P) x -> stale y -> exists r,
      di_gemvH DI d x (o_one O) (o_zero O) y = Ok r /\ length r = n_z P /\
      forall i, (i < n_z P)%nat -> let m' := rsum (n_z P) (fun j => Rabs (cH P i j * vv x j)) in
        safe K C m' -> fin (vg r i) /\ nr K C m' (vg r i) (times (n_z P) (cH P) (vv x) i);
    ir_G : forall x y, length x = n_z P -> length y = n_l P -> fins O fin (n_z P) x -> stale y -> exists r,
      di_gemvG DI d x (o_one O) (o_zero O) y = Ok r /\ length r = n_l P /\
      forall i, (i < n_l P)%nat -> let m' := rsum (n_z P) (fun j => Rabs (cG P i j * vv x j)) in
        safe K C m' -> fin (vg r i) /\ nr K C m' (vg r i) (times (n_z P) (cG P) (vv x) i);
    ir_A : forall x y, length x = n_z P -> length y = n_v P -> fins O fin (n_z P) x -> stale y -> exists r,
      di_gemvA DI d x (o_one O) (o_zero O) y = Ok r /\ length r = n_v P /\
      forall i, (i < n_v P)%nat -> let m' := rsum (n_z P) (fun j => Rabs (cA P i j * vv x j)) in
        safe K C m' -> fin (vg r i) /\ nr K C m' (vg r i) (times (n_z P) (cA P) (vv x) i);
    ir_f : exists r, di_axpyf DI d (o_one O) (vconst (n_z P) (o_zero O)) = Ok r /\ length r = n_z P /\
      forall i, (i < n_z P)%nat -> safe K C (Rabs (cf P i)) -> fin (vg r i) /\ nr K C (Rabs (cf P i)) (vg r i) (cf P i);
    ir_h : exists r, di_axpyh DI d (o_one O) (vconst (n_l P) (o_zero O)) = Ok r /\ length r = n_l P /\
      forall i, (i < n_l P)%nat -> safe K C (Rabs (ch P i)) -> fin (vg r i) /\ nr K C (Rabs (ch P i)) (vg r i) (ch P i);
    ir_b : exists r, di_axpyb DI d (o_one O) (vconst (n_v P) (o_zero O)) = Ok r /\ length r = n_v P /\
      forall i, (i < n_v P)%nat -> safe K C (Rabs (cb P i)) -> fin (vg r i) /\ nr K C (Rabs (cb P i)) (vg r i) (cb P i) }.

  (* ---------------- dense ---------------- *)
  (* one entry 1*p + b*y, where b*y stands for t *)
  Lemma entry_fwd n p by' k c m t t' m' : fin p -> fin by' -> 0 <= c ->
    nr (n + 1) (2 * INR n) m' p t' -> nr (k + 1) (c + 1) m by' t ->
    safe (k + (n + 4)) (c + (2 * INR n + 3)) (m + m') ->
    fin (o_add O (o_mul O (o_one O) p) by') /\
    nr (k + (n + 4)) (c + (2 * INR n + 3)) (m + m') (o_add O (o_mul O (o_one O) p) by') (t + t').
  Proof.
    intros Fp Fy Hc Np Ny S. destruct (rd_one _ _ _ _ _ W) as (F1 & V1). pose proof (pos_INR n) as Hn.
    pose proof (near_m _ _ _ _ _ Np) as M1. pose proof (near_m _ _ _ _ _ Ny) as M2.
    assert (Fm : fin (o_mul O (o_one O) p)).
    { apply (funit _ _ _ _ _ _ 1 Np); auto using Rabs_R1. eapply safe_le; [exact S|lia|lra|lra]. }
    pose proof (near_unit W (n + 1) (2 * INR n) m' _ p t' 1 ltac:(lra) Rabs_R1 V1 Fm Np) as N1.
    assert (N1' : nr (k + (n + 3)) (2 * INR n + 1) m' (o_mul O (o_one O) p) (1 * t')) by (eapply (near_weaken W); [exact N1|lia|lra|lra]).
    assert (N2' : nr (k + (n + 3)) (c + 1) m by' t) by (eapply (near_weaken W); [exact Ny|lia|lra|lra]).
    assert (FS : fin (o_add O (o_mul O (o_one O) p) by')).
    { apply (fadd _ _ _ _ _ _ _ _ _ N1' N2'); auto. eapply safe_le; [exact S|lia|lra|lra]. }
    split; [exact FS|].
    assert (X : nr (k + (n + 3) + 1) ((2 * INR n + 1) + (c + 1) + 1) (m' + m) (o_add O (o_mul O (o_one O) p) by') (1 * t' + t))
      by (apply (near_add W); [lra|lra|exact FS|exact N1'|exact N2']).
    replace (t + t') with (1 * t' + t) by ring. replace (m + m') with (m' + m) by ring.
    eapply (near_weaken W); [exact X|lia|lra|lra].
  Qed.
  Lemma one_times k c m b y : nr k c m b y -> 0 <= c -> fin b -> safe k c m ->
    fin (o_mul O (o_one O) b) /\ nr (k + 1) (c + 1) m (o_mul O (o_one O) b) y.
  Proof.
    intros N Hc F S. destruct (rd_one _ _ _ _ _ W) as (F1 & V1).
    assert (Fm : fin (o_mul O (o_one O) b)) by (apply (funit _ _ _ _ _ _ 1 N); auto using Rabs_R1).
    split; [exact Fm|]. pose proof (near_unit W k c m _ b y 1 Hc Rabs_R1 V1 Fm N) as X. rewrite Rmult_1_l in X. exact X.
  Qed.
  Lemma zero_times b : fin b -> fin (o_mul O (o_zero O) b) /\ nr (0 + 1) (0 + 1) 0 (o_mul O (o_zero O) b) 0.
  Proof.
    intro F. destruct (rd_zero _ _ _ _ _ W) as (F0 & V0).
    assert (Fm : fin (o_mul O (o_zero O) b)).
    { apply (rg_mul _ _ _ _ _ _ G); auto. rewrite V0, Rmult_0_l, Rabs_R0. pose proof (rg_big _ _ _ _ _ _ G). lra. }
    split; [exact Fm|]. split; [rewrite Rabs_R0; lra|].
    rewrite (rd_mul_zero _ _ _ _ _ W) by auto. rewrite Rminus_0_r, Rabs_R0.
    pose proof (pw_ge1 W (0 + 1)). pose proof (rd_eta _ _ _ _ _ W). nra.
  Qed.
  Lemma rsum_abs_pos n (f : nat -> R) : 0 <= rsum n (fun i => Rabs (f i)).
  Proof. apply rsum_nonneg. intros. apply Rabs_pos. Qed.

  Section Dense.
    Context (d : dense_data T) (nz nl nv : nat).
    Hypothesis OK : dense_ok d nz nl nv.
    Notation P := (dense_qp_val (O:=O) (val:=val) d).
    Notation q := (nz + nl + nv)%nat.
    Hypothesis FH : mfin (dd_H d) nz nz.
    Hypothesis FG : mfin (dd_G d) nl nz.
    Hypothesis FA : mfin (dd_A d) nv nz.
    Hypothesis Ff : fins O fin nz (dd_f d).
    Hypothesis Fh : fins O fin nl (dd_h d).
    Hypothesis Fb : fins O fin nv (dd_b d).

    Lemma gemvT_fwd M x y n m : mr M = n -> mc M = m -> length x = n -> length y = m -> (n <= q)%nat -> mfin M n m -> fins O fin n x ->
      exists r, dense_gemvT O M x (o_one O) (o_one O) y = Ok r /\ length r = m /\
      forall i, (i < m)%nat -> fin (vg y i) -> forall k c w t, 0 <= c -> nr k c w (vg y i) t ->
        let m' := w + rsum n (fun j => Rabs (val (mget O M j i) * vv x j)) in
        safe (k + (q + 4)) (c + (2 * INR q + 3)) m' ->
        fin (vg r i) /\ nr (k + (q + 4)) (c + (2 * INR q + 3)) m' (vg r i) (t + ttimes n (fun i j => val (mget O M i j)) (vv x) i).
    Proof.
      intros Hr Hc Lx Ly Hq FM Fx. unfold dense_gemvT. rewrite Hr, Hc, Lx, Ly, !Nat.eqb_refl. cbn [andb ub_unless rbind].
      eexists. split; [reflexivity|]. split; [apply tab_length|]. intros i Hi Fy k c w t H0 Ny S.
      rewrite (vget_tab O) by exact Hi. pose proof (pos_INR n) as I1. pose proof (le_INR _ _ Hq) as I2.
      pose proof (near_m _ _ _ _ _ Ny) as M0. pose proof (rsum_abs_pos n (fun j => val (mget O M j i) * vv x j)) as M1.
      assert (Fp : fin (vg (mtv O M x) i)) by (eapply col_fwd; eauto; eapply safe_le; [exact S|lia|lra|lra]).
      destruct (col_near W M x i n m Hr Hc Lx Hi Fp) as (_ & Np).
      destruct (one_times k c w (vg y i) t Ny H0 Fy ltac:(eapply safe_le; [exact S|lia|lra|lra])) as (F1 & N1).
      destruct (entry_fwd n _ _ k c w t _ _ Fp F1 H0 Np N1 ltac:(eapply safe_le; [exact S|lia|lra|lra])) as (F2 & N2).
      split; [exact F2|]. eapply (near_weaken W); [exact N2|lia|lra|lra].
    Qed.
    Lemma gemv_fwd M x y n m : mr M = n -> mc M = m -> length x = m -> length y = n -> (m <= q)%nat -> mfin M n m -> fins O fin m x ->
      fins O fin n y -> exists r, dense_gemv O M x (o_one O) (o_zero O) y = Ok r /\ length r = n /\
      forall i, (i < n)%nat -> let m' := rsum m (fun j => Rabs (val (mget O M i j) * vv x j)) in
        safe (q + 4) (2 * INR q + 3) m' ->
        fin (vg r i) /\ nr (q + 4) (2 * INR q + 3) m' (vg r i) (times m (fun i j => val (mget O M i j)) (vv x) i).
    Proof.
      intros Hr Hc Lx Ly Hq FM Fx Fy. unfold dense_gemv. rewrite Hr, Hc, Lx, Ly, !Nat.eqb_refl. cbn [andb ub_unless rbind].
      eexists. split; [reflexivity|]. split; [apply tab_length|]. intros i Hi S.
      rewrite (vget_tab O) by exact Hi. pose proof (pos_INR m) as I1. pose proof (le_INR _ _ Hq) as I2.
      pose proof (rsum_abs_pos m (fun j => val (mget O M i j) * vv x j)) as M1.
      assert (Fp : fin (vg (mv O M x) i)) by (eapply row_fwd; eauto; eapply safe_le; [exact S|lia|lra|lra]).
      destruct (row_near W M x i n m Hr Hc Lx Hi Fp) as (_ & Np).
      destruct (zero_times (vg y i) (Fy i Hi)) as (F1 & N1).
      destruct (entry_fwd m _ _ 0 0 0 0 _ _ Fp F1 (Rle_refl 0) Np N1 ltac:(eapply safe_le; [exact S|lia|lra|lra])) as (F2 & N2).
      split; [exact F2|]. rewrite !Rplus_0_l in N2. eapply (near_weaken W); [exact N2|lia|lra|lra].
    Qed.
    Lemma axpy_fwd w n : length w = n -> fins O fin n w -> exists r,
      dense_axpy O w (o_one O) (vconst n (o_zero O)) = Ok r /\ length r = n /\
      forall i, (i < n)%nat -> safe (q + 4) (2 * INR q + 3) (Rabs (vv w i)) ->
        fin (vg r i) /\ nr (q + 4) (2 * INR q + 3) (Rabs (vv w i)) (vg r i) (vv w i).
    Proof.
      intros Lw Fw. destruct (rd_one _ _ _ _ _ W) as (F1 & V1). destruct (rd_zero _ _ _ _ _ W) as (F0 & V0).
      destruct (axpy_F W w (o_one O) (vconst n (o_zero O)) n q Lw (vconst_len _ _)) as (r & E & L & N).
      exists r. split; [exact E|]. split; [exact L|]. intros i Hi S.
      assert (E0 : vg (vconst n (o_zero O)) i = o_zero O) by (unfold vconst; rewrite (vget_tab O) by exact Hi; reflexivity).
      assert (N0 : nr 0 0 0 (vg (vconst n (o_zero O)) i) 0).
      { rewrite E0. split; [rewrite Rabs_R0; lra|]. rewrite V0, Rminus_0_r, Rabs_R0. lra. }
      assert (FR : fin (vg r i)).
      { unfold dense_axpy in E. rewrite Lw, vconst_len, Nat.eqb_refl in E. cbn [ub_unless rbind] in E. injection E as <-.
        unfold vaxpy. rewrite vconst_len, (vget_tab O) by exact Hi. rewrite E0. pose proof (pos_INR q).
        assert (Fm : fin (o_mul O (o_one O) (vg w i))).
        { apply (funit 0 0 (Rabs (vv w i)) _ _ (vv w i) 1); auto using Rabs_R1; [apply near_exact|].
          eapply safe_le; [exact S|lia|lra|]. split; [apply Rabs_pos|lra]. }
        apply (fadd 1 0 1 0 (Rabs (vv w i)) _ _ 0 (1 * vv w i)); auto.
        - split; [rewrite Rabs_R0; lra|]. rewrite V0, Rminus_0_r, Rabs_R0. lra.
        - pose proof (near_unit W 0 0 (Rabs (vv w i)) (o_one O) (vg w i) (vv w i) 1 (Rle_refl 0) Rabs_R1 V1 Fm (near_exact _)) as X.
          rewrite Rplus_0_l in X. exact X.
        - rewrite !Rplus_0_l. eapply safe_le; [exact S|lia|lra|]. split; [apply Rabs_pos|lra]. }
      split; [exact FR|]. destruct (N i Hi FR) as (_ & _ & B). specialize (B 0%nat 0 0 0 (Rle_refl 0) N0).
      rewrite V1, !Rmult_1_l, !Rplus_0_l in B. exact B.
    Qed.

    Theorem dense_range : InRange (denseDI O) d P (q + 4) (2 * INR q + 3) (fun y => fins O fin (length y) y).
    Proof.
      destruct OK as [Hr Hc Gr Gc Ar Ac Hf Hh Hb].
      constructor; cbn [n_z n_l n_v cH cf cG ch cA cb dense_qp_val qp_val denseDI di_gemvH di_gemvA di_gemvG
        di_gemvAT di_gemvGT di_axpyf di_axpyh di_axpyb]; rewrite ?Hf, ?Hh, ?Hb.
      - intros x y Lx Ly Fx. apply gemvT_fwd; auto. lia.
      - intros x y Lx Ly Fx. apply gemvT_fwd; auto. lia.
      - intros x y Lx Ly Fx Fy. rewrite Ly in Fy. apply gemv_fwd; auto. lia.
      - intros x y Lx Ly Fx Fy. rewrite Ly in Fy. apply gemv_fwd; auto. lia.
      - intros x y Lx Ly Fx Fy. rewrite Ly in Fy. apply gemv_fwd; auto. lia.
      - apply axpy_fwd; auto.
      - apply axpy_fwd; auto.
      - apply axpy_fwd; auto.
    Qed.
  End Dense.
End Fwd.
