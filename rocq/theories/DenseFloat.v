(* DenseData in rounded arithmetic. *)
From Verif Require Export FloatRes DenseOk.
Local Open Scope R_scope.

Section DenseFloat.
  Context {T : Type} {O : Ops T} {fin : T -> Prop} {val : T -> R} {u eta : R}.
  Hypothesis W : Rounded O fin val u eta.
  Notation nr := (@near T val u eta).
  Notation vv := (fun x i => val (vget O x i)).

  (* the QP whose coefficients are the values of the floating-point data *)
  Definition qp_val (H : mat T) (f : vec T) (G : mat T) (h : vec T) (A : mat T) (b : vec T) : QP :=
    mkQP (length f) (length h) (length b) (fun i j => val (mget O H i j)) (vv f)
         (fun i j => val (mget O G i j)) (vv h) (fun i j => val (mget O A i j)) (vv b).
  Definition dense_qp_val (d : dense_data T) : QP := qp_val (dd_H d) (dd_f d) (dd_G d) (dd_h d) (dd_A d) (dd_b d).

  (* the bookkeeping of one entry a*p + y, a = 1 or -1 *)
  Lemma gemv_entry n p a b y s : Rabs s = 1 -> val a = s -> val b = 1 ->
    fin (o_add O (o_mul O a p) (o_mul O b y)) ->
    fin p /\ fin y /\ forall t' m', nr (n + 1) (2 * INR n) m' p t' ->
    forall k c m t, 0 <= c -> nr k c m y t ->
      nr (k + (n + 4)) (c + (2 * INR n + 3)) (m + m') (o_add O (o_mul O a p) (o_mul O b y)) (t + s * t').
  Proof.
    intros Hs Va Vb F. destruct (rd_add _ _ _ _ _ W _ _ F) as (Fa & Fb & _).
    destruct (rd_mul _ _ _ _ _ W _ _ Fa) as (_ & Fp & _). destruct (rd_mul _ _ _ _ _ W _ _ Fb) as (_ & Fy & _).
    split; [exact Fp|]. split; [exact Fy|]. intros t' m' Np k c m t Hc Ny. pose proof (pos_INR n) as Hn.
    pose proof (near_unit W (n + 1) (2 * INR n) m' a p t' s ltac:(lra) Hs Va Fa Np) as N1.
    pose proof (near_unit W k c m b y t 1 Hc Rabs_R1 Vb Fb Ny) as N2. rewrite Rmult_1_l in N2.
    replace (t + s * t') with (s * t' + t) by ring. replace (m + m') with (m' + m) by ring.
    replace (c + (2 * INR n + 3)) with ((2 * INR n + 1) + (c + 1) + 1) by ring.
    replace (k + (n + 4))%nat with (k + n + 3 + 1)%nat by lia.
    apply (near_add W); [lra|lra|exact F| |].
    - eapply (near_weaken W); [exact N1|lia|lra|lra].
    - eapply (near_weaken W); [exact N2|lia|lra|lra].
  Qed.

  Lemma row_near M x i n m : mr M = n -> mc M = m -> length x = m -> (i < n)%nat -> fin (vget O (mv O M x) i) ->
    fins O fin m x /\
    nr (m + 1) (2 * INR m) (rsum m (fun j => Rabs (val (mget O M i j) * vv x j))) (vget O (mv O M x) i)
       (times m (fun i j => val (mget O M i j)) (vv x) i).
  Proof.
    intros Hr Hc Lx Hi F. unfold mv in *. rewrite Hr in F |- *. rewrite (vget_tab O) in F |- * by exact Hi.
    assert (L : length (mrow O M i) = m) by (unfold mrow; rewrite tab_length; exact Hc).
    assert (L' : length (mrow O M i) = length x) by congruence.
    split.
    - destruct (rd_dot _ _ _ _ _ W _ _ L' F) as (Fx & _). intros j Hj. rewrite L in Fx. apply (Fx j Hj).
    - pose proof (near_dot W _ _ L' F) as N. rewrite L in N. unfold times.
      assert (E : forall j, (j < m)%nat -> vget O (mrow O M i) j = mget O M i j).
      { intros j Hj. unfold mrow. rewrite Hc, (vget_tab O) by exact Hj. reflexivity. }
      rewrite (rsum_ext m (fun j => val (mget O M i j) * vv x j) (fun j => val (vget O (mrow O M i) j) * val (vget O x j)))
        by (intros j Hj; rewrite E by exact Hj; reflexivity).
      rewrite (rsum_ext m (fun j => Rabs (val (mget O M i j) * vv x j)) (fun j => Rabs (val (vget O (mrow O M i) j) * val (vget O x j))))
        by (intros j Hj; rewrite E by exact Hj; reflexivity).
      exact N.
  Qed.
  Lemma col_near M x i n m : mr M = n -> mc M = m -> length x = n -> (i < m)%nat -> fin (vget O (mtv O M x) i) ->
    fins O fin n x /\
    nr (n + 1) (2 * INR n) (rsum n (fun j => Rabs (val (mget O M j i) * vv x j))) (vget O (mtv O M x) i)
       (ttimes n (fun i j => val (mget O M i j)) (vv x) i).
  Proof.
    intros Hr Hc Lx Hi F. unfold mtv in *. rewrite Hc in F |- *. rewrite (vget_tab O) in F |- * by exact Hi.
    assert (L : length (mcol O M i) = n) by (unfold mcol; rewrite tab_length; exact Hr).
    assert (L' : length (mcol O M i) = length x) by congruence.
    split.
    - destruct (rd_dot _ _ _ _ _ W _ _ L' F) as (Fx & _). intros j Hj. rewrite L in Fx. apply (Fx j Hj).
    - pose proof (near_dot W _ _ L' F) as N. rewrite L in N. unfold ttimes.
      assert (E : forall j, (j < n)%nat -> vget O (mcol O M i) j = mget O M j i).
      { intros j Hj. unfold mcol. rewrite Hr, (vget_tab O) by exact Hj. reflexivity. }
      rewrite (rsum_ext n (fun j => val (mget O M j i) * vv x j) (fun j => val (vget O (mcol O M i) j) * val (vget O x j)))
        by (intros j Hj; rewrite E by exact Hj; reflexivity).
      rewrite (rsum_ext n (fun j => Rabs (val (mget O M j i) * vv x j)) (fun j => Rabs (val (vget O (mcol O M i) j) * val (vget O x j))))
        by (intros j Hj; rewrite E by exact Hj; reflexivity).
      exact N.
  Qed.

  Lemma gemv_F M x a b y n m s q : mr M = n -> mc M = m -> length x = m -> length y = n -> (m <= q)%nat ->
    Rabs s = 1 -> val a = s -> val b = 1 -> exists r,
    dense_gemv O M x a b y = Ok r /\ length r = n /\
    forall i, (i < n)%nat -> fin (vget O r i) -> fin (vget O y i) /\ fins O fin m x /\
      forall k c w t, 0 <= c -> nr k c w (vget O y i) t ->
        nr (k + (q + 4)) (c + (2 * INR q + 3)) (w + rsum m (fun j => Rabs (val (mget O M i j) * vv x j))) (vget O r i)
           (t + s * times m (fun i j => val (mget O M i j)) (vv x) i).
  Proof.
    intros Hr Hc Lx Ly Hq Hs Va Vb. unfold dense_gemv. rewrite Hr, Hc, Lx, Ly, !Nat.eqb_refl. cbn [andb ub_unless rbind].
    eexists. split; [reflexivity|]. split; [apply tab_length|]. intros i Hi F.
    rewrite (vget_tab O) in F |- * by exact Hi.
    destruct (gemv_entry m _ a b _ s Hs Va Vb F) as (Fp & Fy & N). split; [exact Fy|].
    destruct (row_near M x i n m Hr Hc Lx Hi Fp) as (Fx & Np). split; [exact Fx|].
    intros k c w t Hc0 Ny. eapply (near_weaken W); [apply (N _ _ Np k c w t Hc0 Ny)|lia| |apply Rle_refl].
    pose proof (pos_INR m). pose proof (le_INR _ _ Hq). lra.
  Qed.
  Lemma gemvT_F M x a b y n m s q : mr M = n -> mc M = m -> length x = n -> length y = m -> (n <= q)%nat ->
    Rabs s = 1 -> val a = s -> val b = 1 -> exists r,
    dense_gemvT O M x a b y = Ok r /\ length r = m /\
    forall i, (i < m)%nat -> fin (vget O r i) -> fin (vget O y i) /\ fins O fin n x /\
      forall k c w t, 0 <= c -> nr k c w (vget O y i) t ->
        nr (k + (q + 4)) (c + (2 * INR q + 3)) (w + rsum n (fun j => Rabs (val (mget O M j i) * vv x j))) (vget O r i)
           (t + s * ttimes n (fun i j => val (mget O M i j)) (vv x) i).
  Proof.
    intros Hr Hc Lx Ly Hq Hs Va Vb. unfold dense_gemvT. rewrite Hr, Hc, Lx, Ly, !Nat.eqb_refl. cbn [andb ub_unless rbind].
    eexists. split; [reflexivity|]. split; [apply tab_length|]. intros i Hi F.
    rewrite (vget_tab O) in F |- * by exact Hi.
    destruct (gemv_entry n _ a b _ s Hs Va Vb F) as (Fp & Fy & N). split; [exact Fy|].
    destruct (col_near M x i n m Hr Hc Lx Hi Fp) as (Fx & Np). split; [exact Fx|].
    intros k c w t Hc0 Ny. eapply (near_weaken W); [apply (N _ _ Np k c w t Hc0 Ny)|lia| |apply Rle_refl].
    pose proof (pos_INR n). pose proof (le_INR _ _ Hq). lra.
  Qed.
  Lemma axpy_F w a y n q : length w = n -> length y = n -> exists r,
    dense_axpy O w a y = Ok r /\ length r = n /\
    forall i, (i < n)%nat -> fin (vget O r i) -> fin a /\ fin (vget O y i) /\
      forall k c m t, 0 <= c -> nr k c m (vget O y i) t ->
        nr (k + (q + 4)) (c + (2 * INR q + 3)) (m + Rabs (val a * vv w i)) (vget O r i) (t + val a * vv w i).
  Proof.
    intros Lw Ly. unfold dense_axpy. rewrite Lw, Ly, Nat.eqb_refl. cbn [ub_unless rbind].
    eexists. split; [reflexivity|]. unfold vaxpy. rewrite Ly. split; [apply tab_length|]. intros i Hi F.
    rewrite (vget_tab O) in F |- * by exact Hi.
    destruct (rd_add _ _ _ _ _ W _ _ F) as (Fy & Fm & _). destruct (rd_mul _ _ _ _ _ W _ _ Fm) as (Fa & Fw & Em).
    split; [exact Fa|]. split; [exact Fy|]. intros k c m t Hc Ny. pose proof (pos_INR q) as Hq.
    pose proof (rd_u _ _ _ _ _ W) as Hu. pose proof (rd_eta _ _ _ _ _ W) as He.
    assert (N1 : nr (k + 1) 1 (Rabs (val a * vv w i)) (o_mul O a (vget O w i)) (val a * vv w i)).
    { apply (near_weaken W 1 1 (Rabs (val a * vv w i))); [|lia|lra|lra]. split; [lra|]. rewrite pow_1.
      assert (0 <= u * eta) by (apply Rmult_le_pos; assumption). nra. }
    assert (N2 : nr (k + 1) c m (vget O y i) t) by (eapply (near_weaken W); [exact Ny|lia|lra|lra]).
    pose proof (near_add W _ _ 1 _ _ _ _ _ _ Hc ltac:(lra) F N2 N1) as N.
    eapply (near_weaken W); [exact N|lia|lra|lra].
  Qed.

  Lemma val_mone : val (o_mone O) = -1.
  Proof.
    destruct (rd_one _ _ _ _ _ W) as (F & V). unfold o_mone. destruct (rd_opp_fin _ _ _ _ _ W _ F) as (_ & ->). rewrite V. ring.
  Qed.

  Theorem dense_approx d nz nl nv : dense_ok d nz nl nv -> (0 < nz)%nat ->
    Approx O fin val u eta (denseDI O) d (dense_qp_val d) (nz + nl + nv + 4) (2 * INR (nz + nl + nv) + 3).
  Proof.
    intros [Hr Hc Gr Gc Ar Ac Hf Hh Hb] Pz. pose proof (pos_INR (nz + nl + nv)) as Hq.
    destruct (rd_one _ _ _ _ _ W) as (F1 & V1). pose proof val_mone as Vm.
    assert (M1 : Rabs (-1) = 1) by (rewrite Rabs_left by lra; ring).
    constructor; cbn [n_z n_l n_v cH cf cG ch cA cb dense_qp_val qp_val denseDI di_gemvH di_gemvA di_gemvG
      di_gemvAT di_gemvGT di_axpyf di_axpyh di_axpyb]; rewrite ?Hf, ?Hh, ?Hb.
    - lra.
    - intros x y Lx Ly. destruct (gemv_F (dd_H d) x (o_one O) (o_one O) y nz nz 1 (nz + nl + nv) Hr Hc Lx Ly ltac:(lia) Rabs_R1 V1 V1) as (r & E & L & N).
      exists r. split; [exact E|]. split; [exact L|]. split; [intro Fr; apply (N 0%nat Pz (Fr 0%nat Pz))|].
      intros i Hi Fi. destruct (N i Hi Fi) as (A & _ & B). split; [exact A|]. intros k c m t H0 Nt. specialize (B k c m t H0 Nt). rewrite Rmult_1_l in B. exact B.
    - intros x y Lx Ly. destruct (gemvT_F (dd_G d) x (o_one O) (o_one O) y nl nz 1 (nz + nl + nv) Gr Gc Lx Ly ltac:(lia) Rabs_R1 V1 V1) as (r & E & L & N).
      exists r. split; [exact E|]. split; [exact L|]. split; [intro Fr; apply (N 0%nat Pz (Fr 0%nat Pz))|].
      intros i Hi Fi. destruct (N i Hi Fi) as (A & _ & B). split; [exact A|]. intros k c m t H0 Nt. specialize (B k c m t H0 Nt). rewrite Rmult_1_l in B. exact B.
    - intros x y Lx Ly. destruct (gemvT_F (dd_A d) x (o_one O) (o_one O) y nv nz 1 (nz + nl + nv) Ar Ac Lx Ly ltac:(lia) Rabs_R1 V1 V1) as (r & E & L & N).
      exists r. split; [exact E|]. split; [exact L|]. split; [intro Fr; apply (N 0%nat Pz (Fr 0%nat Pz))|].
      intros i Hi Fi. destruct (N i Hi Fi) as (A & _ & B). split; [exact A|]. intros k c m t H0 Nt. specialize (B k c m t H0 Nt). rewrite Rmult_1_l in B. exact B.
    - intros x y Lx Ly. destruct (gemv_F (dd_G d) x (o_mone O) (o_one O) y nl nz (-1) (nz + nl + nv) Gr Gc Lx Ly ltac:(lia) M1 Vm V1) as (r & E & L & N).
      exists r. split; [exact E|]. split; [exact L|].
      intros i Hi Fi. destruct (N i Hi Fi) as (A & _ & B). split; [exact A|]. intros k c m t H0 Nt. specialize (B k c m t H0 Nt).
      replace (t - times nz (fun i j => val (mget O (dd_G d) i j)) (vv x) i) with (t + -1 * times nz (fun i j => val (mget O (dd_G d) i j)) (vv x) i) by ring. exact B.
    - intros x y Lx Ly. destruct (gemv_F (dd_A d) x (o_mone O) (o_one O) y nv nz (-1) (nz + nl + nv) Ar Ac Lx Ly ltac:(lia) M1 Vm V1) as (r & E & L & N).
      exists r. split; [exact E|]. split; [exact L|].
      intros i Hi Fi. destruct (N i Hi Fi) as (A & _ & B). split; [exact A|]. intros k c m t H0 Nt. specialize (B k c m t H0 Nt).
      replace (t - times nz (fun i j => val (mget O (dd_A d) i j)) (vv x) i) with (t + -1 * times nz (fun i j => val (mget O (dd_A d) i j)) (vv x) i) by ring. exact B.
    - intros y Ly. destruct (axpy_F (dd_f d) (o_one O) y nz (nz + nl + nv) Hf Ly) as (r & E & L & N). exists r. split; [exact E|]. split; [exact L|].
      intros i Hi Fi. destruct (N i Hi Fi) as (_ & A & B). split; [exact A|]. intros k c m t H0 Nt. specialize (B k c m t H0 Nt). rewrite V1, !Rmult_1_l in B. exact B.
    - intros y Ly. destruct (axpy_F (dd_h d) (o_one O) y nl (nz + nl + nv) Hh Ly) as (r & E & L & N). exists r. split; [exact E|]. split; [exact L|].
      intros i Hi Fi. destruct (N i Hi Fi) as (_ & A & B). split; [exact A|]. intros k c m t H0 Nt. specialize (B k c m t H0 Nt). rewrite V1, !Rmult_1_l in B. exact B.
    - intros a y Ly. exact (axpy_F (dd_b d) a y nv (nz + nl + nv) Hb Ly).
  Qed.
End DenseFloat.
