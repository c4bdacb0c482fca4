(* The residuals computed with rounded arithmetic against the exact residuals of the same numbers. *)
From Verif Require Export Rounding QPSpec Spec.
Local Open Scope R_scope.

(* Sizes of the terms that are added up in the residuals (the QP and the point are exact reals). *)
Section Mag.
  Variable P : QP.
  (* |f_i| + sum_j |H_ij z_j| + sum_k |G_ki l_k| + sum_k |A_ki v_k| *)
  Definition mag_z (z l v : nat -> R) (i : nat) : R :=
    Rabs (cf P i) + rsum (n_z P) (fun j => Rabs (cH P i j * z j)) +
    rsum (n_l P) (fun k => Rabs (cG P k i * l k)) + rsum (n_v P) (fun k => Rabs (cA P k i * v k)).
  (* |h_k| + sum_j |G_kj z_j| *)
  Definition mag_l (z : nat -> R) (k : nat) : R := Rabs (ch P k) + rsum (n_z P) (fun j => Rabs (cG P k j * z j)).
  (* |b_k| + sum_j |A_kj z_j| *)
  Definition mag_v (z : nat -> R) (k : nat) : R := Rabs (cb P k) + rsum (n_z P) (fun j => Rabs (cA P k j * z j)).
End Mag.

Section Approx.
  Context {T : Type} (O : Ops T) (fin : T -> Prop) (val : T -> R) (u eta : R).
  Notation nr := (@near T val u eta).
  Notation vv := (fun x i => val (vget O x i)).
  Definition fins (n : nat) (x : vec T) : Prop := forall i, (i < n)%nat -> fin (vget O x i).

  (* What a data class does in rounded arithmetic: a product adds the exact product to y, with K more
     roundings and C more underflows. *)
  Record Approx {D} (DI : DataI T D) (d : D) (P : QP) (K : nat) (C : R) : Prop := {
    ap_C : 0 <= C;
    ap_H : forall x y, length x = n_z P -> length y = n_z P -> exists r,
      di_gemvH DI d x (o_one O) (o_one O) y = Ok r /\ length r = n_z P /\
      (fins (n_z P) r -> fins (n_z P) x) /\
      forall i, (i < n_z P)%nat -> fin (vget O r i) -> fin (vget O y i) /\
        forall k c m t, 0 <= c -> nr k c m (vget O y i) t ->
          nr (k + K) (c + C) (m + rsum (n_z P) (fun j => Rabs (cH P i j * vv x j))) (vget O r i) (t + times (n_z P) (cH P) (vv x) i);
    ap_GT : forall x y, length x = n_l P -> length y = n_z P -> exists r,
      di_gemvGT DI d x (o_one O) (o_one O) y = Ok r /\ length r = n_z P /\
      (fins (n_z P) r -> fins (n_l P) x) /\
      forall i, (i < n_z P)%nat -> fin (vget O r i) -> fin (vget O y i) /\
        forall k c m t, 0 <= c -> nr k c m (vget O y i) t ->
          nr (k + K) (c + C) (m + rsum (n_l P) (fun j => Rabs (cG P j i * vv x j))) (vget O r i) (t + ttimes (n_l P) (cG P) (vv x) i);
    ap_AT : forall x y, length x = n_v P -> length y = n_z P -> exists r,
      di_gemvAT DI d x (o_one O) (o_one O) y = Ok r /\ length r = n_z P /\
      (fins (n_z P) r -> fins (n_v P) x) /\
      forall i, (i < n_z P)%nat -> fin (vget O r i) -> fin (vget O y i) /\
        forall k c m t, 0 <= c -> nr k c m (vget O y i) t ->
          nr (k + K) (c + C) (m + rsum (n_v P) (fun j => Rabs (cA P j i * vv x j))) (vget O r i) (t + ttimes (n_v P) (cA P) (vv x) i);
    ap_G : forall x y, length x = n_z P -> length y = n_l P -> exists r,
      di_gemvG DI d x (o_mone O) (o_one O) y = Ok r /\ length r = n_l P /\
      forall i, (i < n_l P)%nat -> fin (vget O r i) -> fin (vget O y i) /\
        forall k c m t, 0 <= c -> nr k c m (vget O y i) t ->
          nr (k + K) (c + C) (m + rsum (n_z P) (fun j => Rabs (cG P i j * vv x j))) (vget O r i) (t - times (n_z P) (cG P) (vv x) i);
    ap_A : forall x y, length x = n_z P -> length y = n_v P -> exists r,
      di_gemvA DI d x (o_mone O) (o_one O) y = Ok r /\ length r = n_v P /\
      forall i, (i < n_v P)%nat -> fin (vget O r i) -> fin (vget O y i) /\
        forall k c m t, 0 <= c -> nr k c m (vget O y i) t ->
          nr (k + K) (c + C) (m + rsum (n_z P) (fun j => Rabs (cA P i j * vv x j))) (vget O r i) (t - times (n_z P) (cA P) (vv x) i);
    ap_f : forall y, length y = n_z P -> exists r, di_axpyf DI d (o_one O) y = Ok r /\ length r = n_z P /\
      forall i, (i < n_z P)%nat -> fin (vget O r i) -> fin (vget O y i) /\
        forall k c m t, 0 <= c -> nr k c m (vget O y i) t -> nr (k + K) (c + C) (m + Rabs (cf P i)) (vget O r i) (t + cf P i);
    ap_h : forall y, length y = n_l P -> exists r, di_axpyh DI d (o_one O) y = Ok r /\ length r = n_l P /\
      forall i, (i < n_l P)%nat -> fin (vget O r i) -> fin (vget O y i) /\
        forall k c m t, 0 <= c -> nr k c m (vget O y i) t -> nr (k + K) (c + C) (m + Rabs (ch P i)) (vget O r i) (t + ch P i);
    (* the step in y: any scaling a *)
    ap_b : forall a y, length y = n_v P -> exists r, di_axpyb DI d a y = Ok r /\ length r = n_v P /\
      forall i, (i < n_v P)%nat -> fin (vget O r i) -> fin a /\ fin (vget O y i) /\
        forall k c m t, 0 <= c -> nr k c m (vget O y i) t ->
          nr (k + K) (c + C) (m + Rabs (val a * cb P i)) (vget O r i) (t + val a * cb P i) }.
End Approx.

Section Norms.
  Context {T : Type} {O : Ops T} {fin : T -> Prop} {val : T -> R} {u eta : R}.
  Hypothesis W : Rounded O fin val u eta.
  Notation nr := (@near T val u eta).

  Lemma sqrt_upper a w X g : fin (o_sqrt O a) -> 0 <= w -> u <= g -> g <= 1 / 8 -> 0 <= X ->
    X * X <= (1 + 2 * g) * (val a + w) -> X <= (1 + 4 * g) * (val (o_sqrt O a) + eta + sqrt w).
  Proof.
    intros F Hw Hg Hg' HX H. destruct (rd_sqrt _ _ _ _ _ W a F) as (_ & Pa & E).
    pose proof (rd_u _ _ _ _ _ W) as Hu. pose proof (rd_eta _ _ _ _ _ W) as He.
    set (s := val (o_sqrt O a)) in *. pose proof (sqrt_pos (val a)) as P1. pose proof (sqrt_pos w) as P2.
    pose proof (Rle_abs (- (s - sqrt (val a)))) as H3. rewrite Rabs_Ropp in H3.
    assert (A : (1 - u) * sqrt (val a) <= s + eta) by lra.
    assert (S0 : 0 <= s + eta) by (assert (0 <= (1 - u) * sqrt (val a)) by (apply Rmult_le_pos; lra); lra).
    assert (B : sqrt (val a) <= (1 + 2 * g) * (s + eta)).
    { assert (B1 : sqrt (val a) <= (1 + 2 * u) * ((1 - u) * sqrt (val a))).
      { assert (1 <= (1 + 2 * u) * (1 - u)) by nra. nra. }
      assert (B2 : (1 + 2 * u) * ((1 - u) * sqrt (val a)) <= (1 + 2 * u) * (s + eta)) by (apply Rmult_le_compat_l; lra).
      assert (B3 : (1 + 2 * u) * (s + eta) <= (1 + 2 * g) * (s + eta)) by (apply Rmult_le_compat_r; lra). lra. }
    assert (C : X <= (1 + g) * (sqrt (val a) + sqrt w)).
    { apply Rsqr_incr_0_var; [|apply Rmult_le_pos; lra]. unfold Rsqr.
      pose proof (sqrt_sqrt _ Pa) as Q1. pose proof (sqrt_sqrt _ Hw) as Q2.
      assert (M : val a + w <= (sqrt (val a) + sqrt w) * (sqrt (val a) + sqrt w)).
      { rewrite <- Q1 at 1. rewrite <- Q2 at 1. assert (0 <= sqrt (val a) * sqrt w) by (apply Rmult_le_pos; lra). lra. }
      replace ((1 + g) * (sqrt (val a) + sqrt w) * ((1 + g) * (sqrt (val a) + sqrt w))) with
        ((1 + g) * (1 + g) * ((sqrt (val a) + sqrt w) * (sqrt (val a) + sqrt w))) by ring.
      eapply Rle_trans; [exact H|]. apply Rmult_le_compat; try lra; nra. }
    assert (D1 : sqrt (val a) + sqrt w <= (1 + 2 * g) * (s + eta + sqrt w)) by nra.
    assert (D2 : (1 + g) * (sqrt (val a) + sqrt w) <= (1 + g) * ((1 + 2 * g) * (s + eta + sqrt w))) by (apply Rmult_le_compat_l; lra).
    assert (D3 : (1 + g) * (1 + 2 * g) <= 1 + 4 * g) by nra.
    assert (D4 : (1 + g) * (1 + 2 * g) * (s + eta + sqrt w) <= (1 + 4 * g) * (s + eta + sqrt w)) by (apply Rmult_le_compat_r; lra).
    lra.
  Qed.

  (* ||x||_2 computed bounds every entry *)
  Lemma norm_upper x n g : length x = n -> fin (vnorm O x) -> (1 + u) ^ (n + 1) <= 1 + g -> g <= 1 / 8 ->
    (forall i, (i < n)%nat -> fin (vget O x i)) /\
    (forall i, (i < n)%nat -> Rabs (val (vget O x i)) <= (1 + 4 * g) * (val (vnorm O x) + eta + sqrt (4 * INR n * eta))).
  Proof.
    intros L F G G'. unfold vnorm, vsqnorm in *. destruct (rd_sqrt _ _ _ _ _ W _ F) as (Fd & _ & _).
    destruct (rd_dot _ _ _ _ _ W x x eq_refl Fd) as (Fx & _). rewrite L in Fx. split; [intros i Hi; apply (Fx i Hi)|].
    intros i Hi. pose proof (near_dot W x x eq_refl Fd) as N. rewrite L in N.
    pose proof (rd_u _ _ _ _ _ W) as Hu. pose proof (rd_eta _ _ _ _ _ W) as He. pose proof (pos_INR n) as Hn.
    assert (Gu : u <= g).
    { assert (1 + u <= (1 + u) ^ (n + 1)) by (rewrite <- (pow_1 (1 + u)) at 1; apply (pw_mono W); lia). lra. }
    set (X := rsum n (fun i => val (vget O x i) * val (vget O x i))) in *.
    assert (NX : nr (n + 1) (2 * INR n) X (o_dot O x x) X).
    { eapply (near_weaken W); [exact N|lia|lra|]. unfold X. apply Req_le. apply rsum_ext. intros j _.
      apply Rabs_pos_eq. apply Rle_0_sqr. }
    apply (near_upper W) in NX; [|lra|lra].
    eapply sqrt_upper; [exact F|apply Rmult_le_pos; lra|exact Gu|exact G'|apply Rabs_pos|].
    rewrite <- Rabs_mult, Rabs_pos_eq by apply Rle_0_sqr.
    assert (E1 : val (vget O x i) * val (vget O x i) <= X).
    { apply (rsum_term_le n (fun i => val (vget O x i) * val (vget O x i)) i Hi). intros j _. apply Rle_0_sqr. }
    destruct (rd_sqrt _ _ _ _ _ W _ F) as (_ & Pd & _).
    assert (P4 : 0 <= val (o_dot O x x) + 4 * INR n * eta) by (assert (0 <= 4 * INR n * eta) by (apply Rmult_le_pos; lra); lra).
    replace (2 * (2 * INR n) * eta) with (4 * INR n * eta) in NX by ring.
    assert (Q : (1 + 2 * ((1 + u) ^ (n + 1) - 1)) * (val (o_dot O x x) + 4 * INR n * eta) <= (1 + 2 * g) * (val (o_dot O x x) + 4 * INR n * eta))
      by (apply Rmult_le_compat_r; lra).
    lra.
  Qed.

  (* underflow in a norm of n entries *)
  Definition tiny (n : nat) : R := 8 * sqrt (INR (n + 1) * eta).
  Lemma tiny_le n m : (m <= n)%nat -> 2 * eta + sqrt (4 * INR m * eta) + sqrt (10 * eta) <= tiny n.
  Proof.
    intro H. unfold tiny. pose proof (rd_eta _ _ _ _ _ W) as He. pose proof (rd_eta1 _ _ _ _ _ W) as He1.
    assert (Q1 : 1 <= INR (n + 1)) by (rewrite plus_INR; pose proof (pos_INR n); cbn [INR]; lra).
    assert (Q2 : INR m <= INR (n + 1)) by (apply le_INR; lia). pose proof (pos_INR m) as Q0.
    set (q := sqrt (INR (n + 1) * eta)). assert (P : 0 <= q) by apply sqrt_pos.
    assert (A1 : eta <= q).
    { unfold q. rewrite <- (sqrt_square eta He) at 1. apply sqrt_le_1_alt. apply Rmult_le_compat_r; [exact He|]. lra. }
    assert (A2 : sqrt (4 * INR m * eta) <= 2 * q).
    { unfold q. replace (4 * INR m * eta) with (2 * 2 * (INR m * eta)) by ring. rewrite sqrt_mult_alt by lra.
      rewrite (sqrt_square 2) by lra. apply Rmult_le_compat_l; [lra|]. apply sqrt_le_1_alt. apply Rmult_le_compat_r; assumption. }
    assert (A3 : sqrt (10 * eta) <= 4 * q).
    { unfold q. eapply Rle_trans; [apply (sqrt_le_1_alt _ (4 * 4 * (INR (n + 1) * eta)))|].
      - assert (eta <= INR (n + 1) * eta) by (rewrite <- (Rmult_1_l eta) at 1; apply Rmult_le_compat_r; lra). lra.
      - rewrite (sqrt_mult_alt (4 * 4)) by lra. rewrite (sqrt_square 4) by lra. lra. }
    lra.
  Qed.

  (* FullResidual::Norm from the cached norms *)
  Lemma rnorm_upper z l v n g : fin (rsd_norm O (mk_rsd O z l v)) ->
    (length z <= n)%nat -> (length l <= n)%nat -> (length v <= n)%nat ->
    (1 + u) ^ (n + 3) <= 1 + g -> g <= 1 / 8 ->
    let r := val (rsd_norm O (mk_rsd O z l v)) in
    (forall i, (i < length z)%nat -> fin (vget O z i) /\ Rabs (val (vget O z i)) <= (1 + 10 * g) * (r + tiny n)) /\
    (forall i, (i < length l)%nat -> fin (vget O l i) /\ Rabs (val (vget O l i)) <= (1 + 10 * g) * (r + tiny n)) /\
    (forall i, (i < length v)%nat -> fin (vget O v i) /\ Rabs (val (vget O v i)) <= (1 + 10 * g) * (r + tiny n)).
  Proof.
    intros F Lz Ll Lv G G'. pose proof (rd_u _ _ _ _ _ W) as Hu. pose proof (rd_eta _ _ _ _ _ W) as He.
    unfold rsd_norm, mk_rsd in *. cbn [r_zn r_ln r_vn] in *.
    set (a := vnorm O z) in *. set (b := vnorm O l) in *. set (c := vnorm O v) in *.
    destruct (rd_sqrt _ _ _ _ _ W _ F) as (F1 & P1 & _).
    destruct (rd_add _ _ _ _ _ W _ _ F1) as (F2 & Fc & _). destruct (rd_add _ _ _ _ _ W _ _ F2) as (Fa & Fb & _).
    assert (Gk : forall k, (k <= n + 3)%nat -> (1 + u) ^ k <= 1 + g).
    { intros k Hk. eapply Rle_trans; [apply (pw_mono W); exact Hk|exact G]. }
    assert (Gu : u <= g) by (pose proof (Gk 1%nat ltac:(lia)) as H; rewrite pow_1 in H; lra).
    assert (SQ : forall t, fin (o_mul O t t) -> nr 1 1 (val t * val t) (o_mul O t t) (val t * val t)).
    { intros t Ft. destruct (rd_mul _ _ _ _ _ W _ _ Ft) as (_ & _ & E).
      assert (S0 : 0 <= val t * val t) by apply Rle_0_sqr. rewrite (Rabs_pos_eq _ S0) in E. split; [rewrite Rabs_pos_eq by exact S0; lra|].
      rewrite pow_1. assert (0 <= u * eta) by (apply Rmult_le_pos; assumption). nra. }
    set (X := val a * val a + val b * val b + val c * val c).
    assert (N : nr 3 5 X (o_add O (o_add O (o_mul O a a) (o_mul O b b)) (o_mul O c c)) X).
    { unfold X. replace 5 with (1 + 1 + 1 + 1 + 1) by ring.
      apply (near_add W 2 (1 + 1 + 1) 1); [lra|lra|exact F1| |].
      - apply (near_add W 1 1 1); [lra|lra|exact F2|apply SQ; exact Fa|apply SQ; exact Fb].
      - eapply (near_weaken W); [apply SQ; exact Fc|lia|lra|lra]. }
    pose proof (Gk 3%nat ltac:(lia)) as G3.
    apply (near_upper W) in N; [|lra|lra].
    set (S := o_add O (o_add O (o_mul O a a) (o_mul O b b)) (o_mul O c c)) in *.
    assert (UP : forall t, fin t -> 0 <= val t -> val t * val t <= X -> val t <= (1 + 4 * g) * (val (o_sqrt O S) + eta + sqrt (10 * eta))).
    { intros t Ft Pt Ht. eapply sqrt_upper; [exact F|lra|exact Gu|exact G'|exact Pt|].
      eapply Rle_trans; [exact Ht|]. eapply Rle_trans; [exact N|]. replace (2 * 5 * eta) with (10 * eta) by ring.
      apply Rmult_le_compat_r; lra. }
    assert (S0 : 0 <= val (o_sqrt O S) + eta).
    { destruct (rd_sqrt _ _ _ _ _ W _ F) as (_ & _ & E). pose proof (Rle_abs (- (val (o_sqrt O S) - sqrt (val S)))) as H3.
      rewrite Rabs_Ropp in H3. pose proof (sqrt_pos (val S)).
      assert (0 <= (1 - u) * sqrt (val S)) by (apply Rmult_le_pos; lra). lra. }
    assert (ONE : forall x, (length x <= n)%nat -> fin (o_mul O (vnorm O x) (vnorm O x)) ->
      val (vnorm O x) * val (vnorm O x) <= X ->
      forall i, (i < length x)%nat -> fin (vget O x i) /\ Rabs (val (vget O x i)) <= (1 + 10 * g) * (val (o_sqrt O S) + tiny n)).
    { intros x Lx Fx Hx i Hi. destruct (rd_mul _ _ _ _ _ W _ _ Fx) as (Fn & _ & _).
      destruct (norm_upper x (length x) g eq_refl Fn) as (A1 & A2); [apply Gk; lia|exact G'|].
      split; [apply A1; exact Hi|]. eapply Rle_trans; [apply A2; exact Hi|].
      pose proof (tiny_le n (length x) Lx) as TL. pose proof (sqrt_pos (4 * INR (length x) * eta)) as Q1. pose proof (sqrt_pos (10 * eta)) as Q2.
      set (s := val (o_sqrt O S)) in *. set (w1 := sqrt (4 * INR (length x) * eta)) in *. set (w2 := sqrt (10 * eta)) in *.
      assert (B : Rabs (val (vnorm O x)) <= (1 + 4 * g) * (s + eta + w2) ).
      { destruct (Rle_dec 0 (val (vnorm O x))) as [Pn|Pn].
        - rewrite Rabs_pos_eq by exact Pn. apply UP; assumption.
        - (* the square root of a rounded sum of squares is at least -eta *)
          destruct (rd_sqrt _ _ _ _ _ W _ Fn) as (_ & Pd & E). fold (vnorm O x) in E.
          pose proof (Rle_abs (- (val (vnorm O x) - sqrt (val (vsqnorm O x))))) as H3. rewrite Rabs_Ropp in H3.
          pose proof (sqrt_pos (val (vsqnorm O x))).
          assert (0 <= (1 - u) * sqrt (val (vsqnorm O x))) by (apply Rmult_le_pos; lra).
          rewrite Rabs_left by lra.
          assert (- val (vnorm O x) <= eta) by lra.
          assert (E2 : eta <= w2).
          { unfold w2. rewrite <- (sqrt_square eta He) at 1. apply sqrt_le_1_alt. pose proof (rd_eta1 _ _ _ _ _ W). nra. }
          assert (1 * (s + eta + w2) <= (1 + 4 * g) * (s + eta + w2)) by (apply Rmult_le_compat_r; lra). lra. }
      pose proof (Rle_abs (val (vnorm O x))) as B'.
      assert (C1 : val (vnorm O x) + eta + w1 <= (1 + 4 * g) * (s + eta + w2 + eta + w1)).
      { assert (0 <= (4 * g) * (eta + w1)) by (apply Rmult_le_pos; lra). lra. }
      assert (C2 : (1 + 4 * g) * (val (vnorm O x) + eta + w1) <= (1 + 4 * g) * ((1 + 4 * g) * (s + eta + w2 + eta + w1))) by (apply Rmult_le_compat_l; lra).
      assert (C3 : (1 + 4 * g) * (1 + 4 * g) <= 1 + 10 * g) by nra.
      assert (C4 : (1 + 4 * g) * (1 + 4 * g) * (s + eta + w2 + eta + w1) <= (1 + 10 * g) * (s + tiny n)).
      { apply Rmult_le_compat; [nra|lra|exact C3|lra]. }
      lra. }
    assert (Z0 : 0 <= val a * val a) by apply Rle_0_sqr. assert (Z1 : 0 <= val b * val b) by apply Rle_0_sqr.
    assert (Z2 : 0 <= val c * val c) by apply Rle_0_sqr.
    cbn zeta. split; [|split].
    - apply ONE; [exact Lz|exact Fa|]. fold a. unfold X. lra.
    - apply ONE; [exact Ll|exact Fb|]. fold b. unfold X. lra.
    - apply ONE; [exact Lv|exact Fc|]. fold c. unfold X. lra.
  Qed.
End Norms.

(* ---------- the KKT residual ---------- *)
Section Kkt.
  Context {T : Type} {O : Ops T} {fin : T -> Prop} {val : T -> R} {u eta : R}.
  Hypothesis W : Rounded O fin val u eta.
  Notation nr := (@near T val u eta).
  Notation vv := (fun x i => val (vget O x i)).
  Notation tiny := (@tiny eta).

  Lemma smin_val a b : fin a -> fin b -> fin (smin O a b) /\ val (smin O a b) = Rmin (val a) (val b).
  Proof.
    intros Fa Fb. unfold smin. pose proof (rd_ltb _ _ _ _ _ W b a Fb Fa) as L. destruct (o_ltb O b a).
    - split; [exact Fb|]. rewrite Rmin_right; [reflexivity|]. apply Rlt_le. apply L. reflexivity.
    - split; [exact Fa|]. rewrite Rmin_left; [reflexivity|]. destruct (Rle_dec (val a) (val b)) as [H|H]; [exact H|].
      exfalso. assert (false = true) by (apply L; lra). discriminate.
  Qed.
  Lemma smax_val a b : fin a -> fin b -> fin (smax O a b) /\ val (smax O a b) = Rmax (val a) (val b).
  Proof.
    intros Fa Fb. unfold smax. pose proof (rd_ltb _ _ _ _ _ W a b Fa Fb) as L. destruct (o_ltb O a b).
    - split; [exact Fb|]. rewrite Rmax_right; [reflexivity|]. apply Rlt_le. apply L. reflexivity.
    - split; [exact Fa|]. rewrite Rmax_left; [reflexivity|]. destruct (Rle_dec (val b) (val a)) as [H|H]; [exact H|].
      exfalso. assert (false = true) by (apply L; lra). discriminate.
  Qed.

  (* one entry of the penalised natural residual *)
  Lemma pen_entry alpha y v g : fin v -> 0 < val alpha <= 1 -> u <= g -> g <= 1 / 8 ->
    let q := o_add O (o_mul O alpha (smin O y v))
               (o_mul O (o_mul O (o_sub O (o_one O) alpha) (smax O (o_zero O) y)) (smax O (o_zero O) v)) in
    fin q -> fin y /\ val alpha * Rabs (Rmin (val y) (val v)) <= (1 + 6 * g) * (Rabs (val q) + 2 * eta).
  Proof.
    intros Fv Ha Hg Hg' q Fq. unfold q in *. clear q. pose proof (rd_u _ _ _ _ _ W) as Hu. pose proof (rd_eta _ _ _ _ _ W) as He.
    destruct (rd_add _ _ _ _ _ W _ _ Fq) as (FA & FB & EQ).
    destruct (rd_mul _ _ _ _ _ W _ _ FA) as (Fal & Fm & EA). destruct (rd_mul _ _ _ _ _ W _ _ FB) as (FC & FS2 & _).
    destruct (rd_mul _ _ _ _ _ W _ _ FC) as (F1a & FS1 & _). destruct (rd_zero _ _ _ _ _ W) as (F0 & V0).
    destruct (rd_one _ _ _ _ _ W) as (F1 & V1).
    assert (Fy : fin y).
    { unfold smin in Fm. destruct (o_ltb O v y) eqn:E; [|exact Fm].
      unfold smax in FS1. destruct (o_ltb O (o_zero O) y) eqn:E0; [exact FS1|].
      (* y is not above 0: if it were not a number, v < y would make it +infinity *)
      destruct (rd_inf _ _ _ _ _ W v (o_zero O) y Fv F0 E) as [H|H]; [exact H|]. rewrite H in E0. discriminate. }
    split; [exact Fy|].
    destruct (smin_val y v Fy Fv) as (_ & Em). destruct (smax_val (o_zero O) y F0 Fy) as (_ & Es1).
    destruct (smax_val (o_zero O) v F0 Fv) as (_ & Es2). rewrite V0 in Es1, Es2.
    rewrite Em in EA. set (m := Rmin (val y) (val v)) in *.
    set (A := o_mul O alpha (smin O y v)) in *.
    set (B := o_mul O (o_mul O (o_sub O (o_one O) alpha) (smax O (o_zero O) y)) (smax O (o_zero O) v)) in *.
    set (Q := o_add O A B) in *.
    assert (AB : Rabs (val A) <= (1 + 2 * g) * (Rabs (val Q) + eta)).
    { assert (AB' : Rabs (val A) <= Rabs (val A + val B)).
      { destruct (Rle_dec m 0) as [Hm|Hm].
        - assert (VB : val B = 0).
          { apply (rd_mul_zero _ _ _ _ _ W _ _ FB). destruct (Rle_dec (val y) 0) as [Hy|Hy].
            - left. apply (rd_mul_zero _ _ _ _ _ W _ _ FC). right. rewrite Es1. apply Rmax_left. exact Hy.
            - right. rewrite Es2. apply Rmax_left. unfold m, Rmin in Hm. destruct (Rle_dec (val y) (val v)); lra. }
          rewrite VB, Rplus_0_r. lra.
        - assert (PA : 0 <= val A) by (apply (rd_mul_nonneg _ _ _ _ _ W _ _ FA); [lra|rewrite Em; lra]).
          assert (PB : 0 <= val B).
          { apply (rd_mul_nonneg _ _ _ _ _ W _ _ FB).
            - apply (rd_mul_nonneg _ _ _ _ _ W _ _ FC); [apply (rd_sub_nonneg _ _ _ _ _ W _ _ F1a); lra|rewrite Es1; apply Rmax_l].
            - rewrite Es2. apply Rmax_l. }
          rewrite !Rabs_pos_eq by lra. lra. }
      set (S := Rabs (val A + val B)) in *. assert (S0 : 0 <= S) by apply Rabs_pos.
      assert (SQ : (1 - u) * S <= Rabs (val Q) + eta).
      { pose proof (Rabs_triang (- (val Q - (val A + val B))) (val Q)) as Tr. rewrite Rabs_Ropp in Tr.
        replace (- (val Q - (val A + val B)) + val Q) with (val A + val B) in Tr by ring. fold S in Tr. lra. }
      assert (1 <= (1 + 2 * u) * (1 - u)) by nra.
      assert (S <= (1 + 2 * u) * ((1 - u) * S)) by nra.
      assert ((1 + 2 * u) * ((1 - u) * S) <= (1 + 2 * u) * (Rabs (val Q) + eta)) by (apply Rmult_le_compat_l; lra).
      pose proof (Rabs_pos (val Q)).
      assert ((1 + 2 * u) * (Rabs (val Q) + eta) <= (1 + 2 * g) * (Rabs (val Q) + eta)) by (apply Rmult_le_compat_r; lra). lra. }
    set (M := val alpha * Rabs m). assert (M0 : 0 <= M) by (apply Rmult_le_pos; [lra|apply Rabs_pos]).
    assert (EM : Rabs (val alpha * m) = M) by (unfold M; rewrite Rabs_mult, (Rabs_pos_eq (val alpha)) by lra; reflexivity).
    rewrite EM in EA.
    assert (SM : (1 - u) * M <= Rabs (val A) + eta).
    { pose proof (Rabs_triang (- (val A - val alpha * m)) (val A)) as Tr. rewrite Rabs_Ropp in Tr.
      replace (- (val A - val alpha * m) + val A) with (val alpha * m) in Tr by ring. rewrite EM in Tr. lra. }
    pose proof (Rabs_pos (val Q)) as Q0. pose proof (Rabs_pos (val A)) as A0.
    assert (1 <= (1 + 2 * u) * (1 - u)) by nra.
    assert (C1 : M <= (1 + 2 * u) * ((1 - u) * M)) by nra.
    assert (C2 : (1 + 2 * u) * ((1 - u) * M) <= (1 + 2 * u) * (Rabs (val A) + eta)) by (apply Rmult_le_compat_l; lra).
    assert (C3 : (1 + 2 * u) * (Rabs (val A) + eta) <= (1 + 2 * g) * (Rabs (val A) + eta)) by (apply Rmult_le_compat_r; lra).
    assert (C4 : Rabs (val A) + eta <= (1 + 2 * g) * (Rabs (val Q) + 2 * eta)) by (assert (0 <= 2 * g * eta) by (apply Rmult_le_pos; lra); lra).
    assert (C5 : (1 + 2 * g) * (Rabs (val A) + eta) <= (1 + 2 * g) * ((1 + 2 * g) * (Rabs (val Q) + 2 * eta))) by (apply Rmult_le_compat_l; lra).
    assert (C6 : (1 + 2 * g) * (1 + 2 * g) <= 1 + 6 * g) by nra.
    assert (C7 : (1 + 2 * g) * (1 + 2 * g) * (Rabs (val Q) + 2 * eta) <= (1 + 6 * g) * (Rabs (val Q) + 2 * eta)) by (apply Rmult_le_compat_r; lra).
    lra.
  Qed.
  (* from the computed entry to the exact one *)
  Lemma near_bound k c m a x g B : near (val:=val) (u:=u) (eta:=eta) k c m a x -> 0 <= c -> (1 + u) ^ k <= 1 + g -> g <= 1 / 8 ->
    Rabs (val a) <= B -> Rabs x <= B + g * m + 2 * c * eta.
  Proof.
    intros [H1 H2] Hc G G' HB. pose proof (rd_eta _ _ _ _ _ W) as He. pose proof (pw_ge1 W k) as P.
    assert (M0 : 0 <= m) by (pose proof (Rabs_pos x); lra).
    pose proof (Rabs_triang (- (val a - x)) (val a)) as Tr. rewrite Rabs_Ropp in Tr.
    replace (- (val a - x) + val a) with x in Tr by ring.
    assert (A1 : ((1 + u) ^ k - 1) * m <= g * m) by (apply Rmult_le_compat_r; lra).
    assert (A2 : (1 + u) ^ k * c * eta <= 2 * c * eta) by (apply Rmult_le_compat_r; [exact He|]; apply Rmult_le_compat_r; lra).
    lra.
  Qed.

  Context {D : Type} (DI : DataI T D) (d : D) (P : QP) (K : nat) (C : R).
  Hypothesis AP : Approx O fin val u eta DI d P K C.
  Notation nz := (n_z P). Notation nl := (n_l P). Notation nv := (n_v P).
  Hypothesis HK : (nz + nl + nv + 3 <= 4 * K)%nat.
  Variable g : R.
  Hypothesis G : (1 + u) ^ (4 * K) <= 1 + g.
  Hypothesis G' : g <= 1 / 8.

  Lemma near_zero : nr 0 0 0 (o_zero O) 0.
  Proof. destruct (rd_zero _ _ _ _ _ W) as (_ & V). split; [rewrite Rabs_R0; lra|]. rewrite V, Rminus_0_r, Rabs_R0. lra. Qed.

  Theorem kkt_float alpha x r tol : var_ok nz nl nv x -> 0 < val alpha <= 1 ->
    kkt_residual O DI d nz nl nv alpha x = Ok r -> o_leb O r tol = true -> fin tol ->
    fin r /\ fins O fin nz (v_z x) /\ fins O fin nl (v_l x) /\ fins O fin nv (v_v x) /\ fins O fin nv (v_y x) /\
    let z := vv (v_z x) in let l := vv (v_l x) in let v := vv (v_v x) in let y := vv (v_y x) in
    let rho := (1 + 10 * g) * (val r + tiny (nz + nl + nv)) in
    (forall i, (i < nz)%nat -> Rabs (lagr P z l v i) <= rho + g * mag_z P z l v i + 8 * C * eta) /\
    (forall k, (k < nl)%nat -> Rabs (ch P k - times nz (cG P) z k) <= rho + g * mag_l P z k + 4 * C * eta) /\
    (forall k, (k < nv)%nat -> val alpha * Rabs (Rmin (y k) (v k)) <= (1 + 6 * g) * (rho + 2 * eta)).
  Proof.
    intros (Hz & Hl & Hv & Hy) Ha E LE Ft. pose proof (ap_C _ _ _ _ _ _ _ _ _ _ AP) as C0.
    unfold kkt_residual, fr_pnr, fr_natural, at_point, blank_residual, deref_checked in E.
    cbn [fr_data fv_x fr_r r_z r_l r_v fr_nv rbind] in E. rewrite !vconst_len in E.
    destruct (ap_f _ _ _ _ _ _ _ _ _ _ AP (vconst nz (o_zero O))) as (z1 & E1 & L1 & V1); [apply vconst_len|].
    destruct (ap_H _ _ _ _ _ _ _ _ _ _ AP (v_z x) z1 Hz L1) as (z2 & E2 & L2 & FZ & V2).
    destruct (ap_GT _ _ _ _ _ _ _ _ _ _ AP (v_l x) z2 Hl L2) as (z3 & E3 & L3 & FL & V3).
    destruct (ap_AT _ _ _ _ _ _ _ _ _ _ AP (v_v x) z3 Hv L3) as (z4 & E4 & L4 & FV & V4).
    destruct (ap_h _ _ _ _ _ _ _ _ _ _ AP (vconst nl (o_zero O))) as (l1 & E5 & L5 & V5); [apply vconst_len|].
    destruct (ap_G _ _ _ _ _ _ _ _ _ _ AP (v_z x) l1 Hz L5) as (l2 & E6 & L6 & V6).
    rewrite E1 in E. cbn [rbind] in E. rewrite E2 in E. cbn [rbind] in E. rewrite E3 in E. cbn [rbind] in E.
    rewrite E4 in E. cbn [rbind] in E. rewrite E5 in E. cbn [rbind] in E. rewrite E6 in E. cbn [rbind] in E.
    rewrite Hy, Hv, Nat.leb_refl, Nat.eqb_refl in E. cbn [andb ub_unless rbind fr_set fr_r fr_nv fr_alpha r_z r_l r_v mk_rsd] in E.
    match type of E with Ok (rsd_norm _ (mk_rsd _ _ _ ?V)) = _ => set (vec := V) in * end.
    injection E as <-.
    pose proof (rd_sqrt_le _ _ _ _ _ W _ _ LE Ft) as Fr. fold (rsd_norm O (mk_rsd O z4 l2 vec)) in Fr. split; [exact Fr|].
    assert (Lvec : length vec = nv) by apply tab_length.
    destruct (rnorm_upper W z4 l2 vec (nz + nl + nv) g Fr) as (B1 & B2 & B3); try lia; try exact G'.
    { eapply Rle_trans; [apply (pw_mono W); exact HK|exact G]. }
    rewrite L4 in B1. rewrite L6 in B2. rewrite Lvec in B3.
    set (rho := (1 + 10 * g) * _) in *.
    assert (F4 : fins O fin nz z4) by (intros i Hi; apply (B1 i Hi)).
    assert (F3 : fins O fin nz z3) by (intros i Hi; apply (V4 i Hi (F4 i Hi))).
    assert (F2 : fins O fin nz z2) by (intros i Hi; apply (V3 i Hi (F3 i Hi))).
    assert (F1 : fins O fin nz z1) by (intros i Hi; apply (V2 i Hi (F2 i Hi))).
    pose proof (FZ F2) as Fz. pose proof (FL F3) as Fl. pose proof (FV F4) as Fv.
    assert (Gu : u <= g).
    { pose proof (pw_mono W 1 (4 * K) ltac:(lia)) as H. rewrite pow_1 in H. lra. }
    assert (PE : forall k, (k < nv)%nat -> fin (vget O (v_y x) k) /\ val alpha * Rabs (Rmin (val (vget O (v_y x) k)) (val (vget O (v_v x) k))) <= (1 + 6 * g) * (rho + 2 * eta)).
    { intros k Hk. destruct (B3 k Hk) as (Fk & Bk). unfold vec in Fk, Bk.
      rewrite (vget_tab O) in Fk, Bk by exact Hk. rewrite (vget_tab O) in Fk, Bk by exact Hk.
      destruct (pen_entry alpha (vget O (v_y x) k) (vget O (v_v x) k) g (Fv k Hk) Ha Gu G' Fk) as (Fy & PB).
      split; [exact Fy|]. eapply Rle_trans; [exact PB|]. apply Rmult_le_compat_l; [pose proof (rd_u _ _ _ _ _ W); lra|]. lra. }
    split; [exact Fz|]. split; [exact Fl|]. split; [exact Fv|]. split; [intros k Hk; apply (PE k Hk)|].
    cbn zeta. split; [|split].
    - intros i Hi. destruct (V1 i Hi (F1 i Hi)) as (_ & N1). destruct (V2 i Hi (F2 i Hi)) as (_ & N2).
      destruct (V3 i Hi (F3 i Hi)) as (_ & N3). destruct (V4 i Hi (F4 i Hi)) as (_ & N4).
      assert (Z0 : vget O (vconst nz (o_zero O)) i = o_zero O) by (unfold vconst; rewrite (vget_tab O) by exact Hi; reflexivity).
      rewrite Z0 in N1. pose proof (N1 _ _ _ _ (Rle_refl 0) near_zero) as M1.
      pose proof (N2 _ (0 + C) _ _ ltac:(lra) M1) as M2. pose proof (N3 _ (0 + C + C) _ _ ltac:(lra) M2) as M3. pose proof (N4 _ (0 + C + C + C) _ _ ltac:(lra) M3) as M4.
      pose proof (near_bound _ _ _ _ _ g rho M4 ltac:(lra)) as Bd.
      replace (0 + K + K + K + K)%nat with (4 * K)%nat in Bd by lia. specialize (Bd G G' (proj2 (B1 i Hi))).
      unfold lagr, mag_z.
      match type of Bd with Rabs ?a <= _ => replace (times nz (cH P) (vv (v_z x)) i + cf P i + ttimes nl (cG P) (vv (v_l x)) i + ttimes nv (cA P) (vv (v_v x)) i) with a by ring end.
      eapply Rle_trans; [exact Bd|]. apply Req_le. ring.
    - intros k Hk. destruct (B2 k Hk) as (Fk & Bk). destruct (V6 k Hk Fk) as (Fk5 & N6). destruct (V5 k Hk Fk5) as (_ & N5).
      assert (Z0 : vget O (vconst nl (o_zero O)) k = o_zero O) by (unfold vconst; rewrite (vget_tab O) by exact Hk; reflexivity).
      rewrite Z0 in N5. pose proof (N5 _ _ _ _ (Rle_refl 0) near_zero) as M5. pose proof (N6 _ (0 + C) _ _ ltac:(lra) M5) as M6.
      pose proof (near_bound _ _ _ _ _ g rho M6 ltac:(lra)) as Bd.
      assert (Gk : (1 + u) ^ (0 + K + K) <= 1 + g) by (eapply Rle_trans; [apply (pw_mono W _ (4 * K)); lia|exact G]).
      specialize (Bd Gk G' Bk). unfold mag_l. rewrite !Rplus_0_l in Bd.
      eapply Rle_trans; [exact Bd|]. apply Req_le. ring.
    - intros k Hk. apply (PE k Hk).
  Qed.
End Kkt.
