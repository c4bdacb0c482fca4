(* Rounded arithmetic: what is assumed of floating-point operations in the theorems about doubles, and
   the bookkeeping of rounding errors.  Instance: BinOps.v (IEEE binary64, round to nearest even). *)
From Verif Require Export RSum.
Local Open Scope R_scope.

(* [fin a]: a is a finite number; [val a] its value.  Every operation with a finite result has finite
   operands and a relative error of at most u plus an absolute error (underflow) of at most eta.  The inner
   product may be summed in any order, with or without fused multiply-add: only the usual bound
   (Higham, Accuracy and Stability, 3.1) is assumed. *)
Record Rounded {T : Type} (O : Ops T) (fin : T -> Prop) (val : T -> R) (u eta : R) : Prop := {
  rd_u : 0 <= u; rd_eta : 0 <= eta; rd_eta1 : eta <= 1;
  rd_zero : fin (o_zero O) /\ val (o_zero O) = 0;
  rd_one : fin (o_one O) /\ val (o_one O) = 1;
  rd_opp : forall a, fin (o_opp O a) -> fin a;
  rd_opp_fin : forall a, fin a -> fin (o_opp O a) /\ val (o_opp O a) = - val a;
  rd_add : forall a b, fin (o_add O a b) -> fin a /\ fin b /\
    Rabs (val (o_add O a b) - (val a + val b)) <= u * Rabs (val a + val b) + eta;
  rd_sub : forall a b, fin (o_sub O a b) -> fin a /\ fin b /\
    Rabs (val (o_sub O a b) - (val a - val b)) <= u * Rabs (val a - val b) + eta;
  rd_mul : forall a b, fin (o_mul O a b) -> fin a /\ fin b /\
    Rabs (val (o_mul O a b) - val a * val b) <= u * Rabs (val a * val b) + eta;
  rd_sqrt : forall a, fin (o_sqrt O a) -> fin a /\ 0 <= val a /\
    Rabs (val (o_sqrt O a) - sqrt (val a)) <= u * sqrt (val a) + eta;
  rd_sqrt_le : forall a b, o_leb O (o_sqrt O a) b = true -> fin b -> fin (o_sqrt O a);
  rd_leb : forall a b, fin a -> fin b -> (o_leb O a b = true <-> val a <= val b);
  rd_ltb : forall a b, fin a -> fin b -> (o_ltb O a b = true <-> val a < val b);
  rd_eqb : forall a b, fin a -> fin b -> (o_eqb O a b = true <-> val a = val b);
  (* the sign of a difference and of a product survives rounding; multiplying by zero is exact *)
  rd_sub_nonneg : forall a b, fin (o_sub O a b) -> val b <= val a -> 0 <= val (o_sub O a b);
  rd_mul_nonneg : forall a b, fin (o_mul O a b) -> 0 <= val a -> 0 <= val b -> 0 <= val (o_mul O a b);
  rd_mul_zero : forall a b, fin (o_mul O a b) -> val a = 0 \/ val b = 0 -> val (o_mul O a b) = 0;
  (* only +infinity is larger than a number without being one *)
  rd_inf : forall a b y, fin a -> fin b -> o_ltb O a y = true -> fin y \/ o_ltb O b y = true;
  rd_dot : forall x y, length x = length y -> fin (o_dot O x y) ->
    (forall i, (i < length x)%nat -> fin (vget O x i) /\ fin (vget O y i)) /\
    Rabs (val (o_dot O x y) - rsum (length x) (fun i => val (vget O x i) * val (vget O y i))) <=
      ((1 + u) ^ (length x + 1) - 1) * rsum (length x) (fun i => Rabs (val (vget O x i) * val (vget O y i))) +
      (1 + u) ^ (length x + 1) * (2 * INR (length x)) * eta }.

Section Near.
  Context {T : Type} {O : Ops T} {fin : T -> Prop} {val : T -> R} {u eta : R}.
  Hypothesis W : Rounded O fin val u eta.

  (* a approximates x, a sum of terms of total size at most m, after k roundings *)
  Definition near (k : nat) (c m : R) (a : T) (x : R) : Prop :=
    Rabs x <= m /\ Rabs (val a - x) <= ((1 + u) ^ k - 1) * m + (1 + u) ^ k * c * eta.

  Lemma pw_ge1 k : 1 <= (1 + u) ^ k.
  Proof. pose proof (rd_u _ _ _ _ _ W). apply pow_R1_Rle. lra. Qed.
  Lemma pw_mono k k' : (k <= k')%nat -> (1 + u) ^ k <= (1 + u) ^ k'.
  Proof. intro. apply Rle_pow; [pose proof (rd_u _ _ _ _ _ W); lra|assumption]. Qed.

  Lemma near_weaken k c m a x k' c' m' : near k c m a x -> (k <= k')%nat -> 0 <= c <= c' -> m <= m' -> near k' c' m' a x.
  Proof.
    intros [H1 H2] Hk Hc Hm. pose proof (rd_eta _ _ _ _ _ W) as He. pose proof (pw_ge1 k). pose proof (pw_mono k k' Hk).
    assert (0 <= m) by (pose proof (Rabs_pos x); lra).
    split; [lra|]. eapply Rle_trans; [exact H2|]. apply Rplus_le_compat.
    - apply Rmult_le_compat; lra.
    - apply Rmult_le_compat_r; [exact He|]. apply Rmult_le_compat; lra.
  Qed.
  Lemma near_exact a : near 0 0 (Rabs (val a)) a (val a).
  Proof. split; [lra|]. rewrite Rminus_diag_eq by reflexivity. rewrite Rabs_R0. cbn. lra. Qed.

  (* one more operation with exact result t, computed from approximations *)
  Lemma near_round k c m a' x e : 0 <= c -> Rabs x <= m ->
    Rabs (val a' - e) <= u * Rabs e + eta ->
    Rabs (e - x) <= ((1 + u) ^ k - 1) * m + (1 + u) ^ k * c * eta ->
    near (k + 1) (c + 1) m a' x.
  Proof.
    intros Hc Hx H1 H2. pose proof (rd_u _ _ _ _ _ W) as Hu. pose proof (rd_eta _ _ _ _ _ W) as He. pose proof (pw_ge1 k) as P1.
    split; [exact Hx|]. rewrite pow_add, pow_1. set (q := (1 + u) ^ k) in *.
    assert (A : Rabs e <= m + ((q - 1) * m + q * c * eta)).
    { replace e with (x + (e - x)) by ring. eapply Rle_trans; [apply Rabs_triang|]. lra. }
    replace (val a' - x) with ((val a' - e) + (e - x)) by ring.
    eapply Rle_trans; [apply Rabs_triang|].
    assert (U : u * Rabs e <= u * (m + ((q - 1) * m + q * c * eta))) by (apply Rmult_le_compat_l; assumption).
    assert (0 <= m) by (pose proof (Rabs_pos x); lra).
    assert (E1 : eta <= q * (1 + u) * eta).
    { rewrite <- (Rmult_1_l eta) at 1. apply Rmult_le_compat_r; [exact He|]. nra. }
    replace ((q * (1 + u) - 1) * m + q * (1 + u) * (c + 1) * eta) with
      (u * (m + ((q - 1) * m + q * c * eta)) + ((q - 1) * m + q * c * eta) + q * (1 + u) * eta) by ring.
    lra.
  Qed.
  Lemma near_add k c1 c2 m1 m2 a b x y : 0 <= c1 -> 0 <= c2 -> fin (o_add O a b) ->
    near k c1 m1 a x -> near k c2 m2 b y -> near (k + 1) (c1 + c2 + 1) (m1 + m2) (o_add O a b) (x + y).
  Proof.
    intros C1 C2 F [X1 X2] [Y1 Y2]. destruct (rd_add _ _ _ _ _ W a b F) as (_ & _ & E).
    eapply near_round; [lra| |exact E|].
    - eapply Rle_trans; [apply Rabs_triang|]. lra.
    - replace (val a + val b - (x + y)) with ((val a - x) + (val b - y)) by ring.
      eapply Rle_trans; [apply Rabs_triang|]. lra.
  Qed.
  Lemma near_sub k c1 c2 m1 m2 a b x y : 0 <= c1 -> 0 <= c2 -> fin (o_sub O a b) ->
    near k c1 m1 a x -> near k c2 m2 b y -> near (k + 1) (c1 + c2 + 1) (m1 + m2) (o_sub O a b) (x - y).
  Proof.
    intros C1 C2 F [X1 X2] [Y1 Y2]. destruct (rd_sub _ _ _ _ _ W a b F) as (_ & _ & E).
    eapply near_round; [lra| |exact E|].
    - unfold Rminus. eapply Rle_trans; [apply Rabs_triang|]. rewrite Rabs_Ropp. lra.
    - replace (val a - val b - (x - y)) with ((val a - x) + - (val b - y)) by ring.
      eapply Rle_trans; [apply Rabs_triang|]. rewrite Rabs_Ropp. lra.
  Qed.
  (* an exact factor *)
  Lemma near_mul k c m a b y : 0 <= c -> fin (o_mul O a b) -> near k c m b y ->
    near (k + 1) (Rabs (val a) * c + 1) (Rabs (val a) * m) (o_mul O a b) (val a * y).
  Proof.
    intros C F [Y1 Y2]. destruct (rd_mul _ _ _ _ _ W a b F) as (_ & _ & E). pose proof (Rabs_pos (val a)).
    eapply near_round; [apply Rmult_le_pos; assumption| |exact E|].
    - rewrite Rabs_mult. apply Rmult_le_compat_l; assumption.
    - rewrite <- Rmult_minus_distr_l, Rabs_mult.
      replace (((1 + u) ^ k - 1) * (Rabs (val a) * m) + (1 + u) ^ k * (Rabs (val a) * c) * eta) with
        (Rabs (val a) * (((1 + u) ^ k - 1) * m + (1 + u) ^ k * c * eta)) by ring.
      apply Rmult_le_compat_l; assumption.
  Qed.
  (* a factor whose value is 1 or -1 *)
  Lemma near_unit k c m a b y s : 0 <= c -> Rabs s = 1 -> val a = s -> fin (o_mul O a b) -> near k c m b y ->
    near (k + 1) (c + 1) m (o_mul O a b) (s * y).
  Proof.
    intros C S E F N. pose proof (near_mul k c m a b y C F N) as H. rewrite E, S, !Rmult_1_l in H. exact H.
  Qed.
  Lemma near_dot x y : length x = length y -> fin (o_dot O x y) ->
    near (length x + 1) (2 * INR (length x)) (rsum (length x) (fun i => Rabs (val (vget O x i) * val (vget O y i))))
      (o_dot O x y) (rsum (length x) (fun i => val (vget O x i) * val (vget O y i))).
  Proof.
    intros L F. destruct (rd_dot _ _ _ _ _ W x y L F) as (_ & E). split; [apply rsum_abs|exact E].
  Qed.
  (* replacing the approximated quantity by the float it stands for *)
  Lemma near_trans k c m a x k' c' m' b y d : 0 <= c -> 0 <= c' ->
    near k c m a x ->                          (* a stands for x *)
    near k' c' (m' + Rabs (val a)) b (y + val a) ->   (* b was computed from a *)
    d = y + x -> Rabs y <= m' ->
    near (k + k') (c + c') (m' + m) b d.
  Proof.
    intros C C' [H1 H2] [G1 G2] -> Hy. pose proof (pw_ge1 k) as P. pose proof (pw_ge1 k') as P'.
    pose proof (rd_eta _ _ _ _ _ W) as He.
    assert (Hm : 0 <= m) by (pose proof (Rabs_pos x); lra). assert (Hm' : 0 <= m') by (pose proof (Rabs_pos y); lra).
    split; [eapply Rle_trans; [apply Rabs_triang|]; lra|]. rewrite pow_add.
    set (q := (1 + u) ^ k) in *. set (q' := (1 + u) ^ k') in *.
    assert (A : Rabs (val a) <= m + ((q - 1) * m + q * c * eta)).
    { replace (val a) with (x + (val a - x)) by ring. eapply Rle_trans; [apply Rabs_triang|]. lra. }
    replace (val b - (y + x)) with ((val b - (y + val a)) + (val a - x)) by ring.
    eapply Rle_trans; [apply Rabs_triang|].
    assert (B : (q' - 1) * (m' + Rabs (val a)) <= (q' - 1) * (m' + (m + ((q - 1) * m + q * c * eta)))) by (apply Rmult_le_compat_l; lra).
    assert (X1 : 0 <= (q * q' - q') * m') by (apply Rmult_le_pos; nra).
    assert (X2 : 0 <= (q - 1) * (q' * c' * eta)) by (apply Rmult_le_pos; [lra|]; apply Rmult_le_pos; [apply Rmult_le_pos; lra|exact He]).
    replace ((q * q' - 1) * (m' + m) + q * q' * (c + c') * eta) with
      ((q' - 1) * (m' + (m + ((q - 1) * m + q * c * eta))) + q' * c' * eta + ((q - 1) * m + q * c * eta)
       + (q * q' - q') * m' + (q - 1) * (q' * c' * eta)) by ring.
    lra.
  Qed.

  (* ---------- sums of squares and norms ---------- *)
  (* a computed quantity that stands for a sum of nonnegative terms bounds it *)
  Lemma near_upper k c a x : 0 <= c -> near k c x a x -> (1 + u) ^ k <= 9 / 8 ->
    x <= (1 + 2 * ((1 + u) ^ k - 1)) * (val a + 2 * c * eta).
  Proof.
    intros C [H1 H2] G. pose proof (pw_ge1 k) as P. pose proof (rd_eta _ _ _ _ _ W) as He.
    assert (0 <= x) by (pose proof (Rabs_pos x); lra).
    set (q := (1 + u) ^ k) in *. pose proof (Rle_abs (- (val a - x))) as H3. rewrite Rabs_Ropp in H3.
    assert (CE : 0 <= c * eta) by (apply Rmult_le_pos; assumption).
    assert (A : (2 - q) * x <= val a + 2 * c * eta) by nra.
    assert (P2 : 0 <= val a + 2 * c * eta) by nra.
    assert (1 <= (1 + 2 * (q - 1)) * (2 - q)) by nra. nra.
  Qed.
End Near.
