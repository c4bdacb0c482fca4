(* IEEE binary64 as Flocq's binary_float 53 1024 (only representable numbers, unlike spec_float): the
   operations of the model, round to nearest even, and the proof that they obey the laws of Rounding.v.
   [B2SF] maps them to the operations of [Fops]. *)
From Coq Require Import ZArith Reals Lra Lia Floats.SpecFloat.
From Verif Require Export Rounding.
From Flocq Require Import Core.Core Relative IEEE754.BinarySingleNaN.
Local Open Scope R_scope.

Definition B64 : Type := binary_float 53 1024.
#[global] Instance prec_pos : FLX.Prec_gt_0 53 := eq_refl.
#[global] Instance prec_emax : Prec_lt_emax 53 1024 := eq_refl.

Definition Badd : B64 -> B64 -> B64 := Bplus mode_NE.
Definition Bsub : B64 -> B64 -> B64 := Bminus mode_NE.
Definition Bmul : B64 -> B64 -> B64 := Bmult mode_NE.
Definition Bdiv_ : B64 -> B64 -> B64 := Bdiv mode_NE.
Definition Bsqrt_ : B64 -> B64 := Bsqrt mode_NE.
Definition Bint (z : Z) : B64 := binary_normalize 53 1024 prec_pos prec_emax mode_NE z 0 false.
Definition Bdec (m e : Z) : B64 :=
  if (0 <=? e)%Z then Bint (m * 10 ^ e) else Bdiv_ (Bint m) (Bint (10 ^ (- e))).
Fixpoint Bdot_acc (acc : B64) (x y : list B64) : B64 :=
  match x, y with
  | a :: x', b :: y' => Bdot_acc (Badd acc (Bmul a b)) x' y'
  | _, _ => acc
  end.
Definition Bdot (x y : list B64) : B64 := Bdot_acc (B754_zero false) x y.
Fixpoint Bmaxc_acc (acc : B64) (v : list B64) : B64 :=
  match v with [] => acc | x :: v' => Bmaxc_acc (if Bltb acc x then x else acc) v' end.
Definition Bmaxc (v : list B64) : B64 :=
  match v with [] => B754_zero false | x :: v' => Bmaxc_acc x v' end.
Definition Bops : Ops B64 :=
  mkOps (B754_zero false) (Bint 1) Bdec Badd Bsub Bmul Bdiv_ (fun x => Bopp x) Bsqrt_ (fun x => Babs x)
        Bltb Bleb Beqb Bdot Bmaxc.

Definition Bfin (x : B64) : Prop := is_finite x = true.
Definition Bval (x : B64) : R := B2R x.
(* 2^-53 and 2^-1075 *)
Definition Bu : R := / 2 * bpow radix2 (-53 + 1).
Definition Beta : R := / 2 * bpow radix2 (-1074).

Notation rnd x := (round radix2 (SpecFloat.fexp 53 1024) ZnearestE x).
Lemma rnd_error x : Rabs (rnd x - x) <= Bu * Rabs x + Beta.
Proof.
  destruct (error_N_FLT radix2 (-1074) 53 (eq_refl) (fun z => negb (Z.even z)) x) as (eps & et & H1 & H2 & _ & H3).
  assert (H4 : rnd x = x * (1 + eps) + et) by exact H3. rewrite H4.
  replace (x * (1 + eps) + et - x) with (x * eps + et) by ring.
  eapply Rle_trans; [apply Rabs_triang|]. rewrite Rabs_mult. apply Rplus_le_compat; [|exact H2].
  rewrite Rmult_comm. apply Rmult_le_compat_r; [apply Rabs_pos|exact H1].
Qed.
Lemma overflow_not_fin (x : B64) s : B2SF x = binary_overflow 53 1024 mode_NE s -> ~ Bfin x.
Proof. intros E F. unfold Bfin in F. rewrite <- is_finite_SF_B2SF, E in F. discriminate F. Qed.

Lemma Badd_law a b : Bfin (Badd a b) -> Bfin a /\ Bfin b /\
  Rabs (Bval (Badd a b) - (Bval a + Bval b)) <= Bu * Rabs (Bval a + Bval b) + Beta.
Proof.
  intro F. assert (FF : Bfin a /\ Bfin b).
  { destruct a as [[]|[]| |s m e H], b as [[]|[]| |s' m' e' H']; cbn in F; try discriminate F; split; reflexivity. }
  destruct FF as [Fa Fb]. split; [exact Fa|]. split; [exact Fb|].
  pose proof (Bplus_correct 53 1024 _ _ mode_NE a b Fa Fb) as C. cbn [round_mode] in C. unfold Bval, Badd.
  destruct (Rlt_bool _ _).
  - destruct C as (-> & _). apply rnd_error.
  - destruct C as (C & _). exfalso. exact (overflow_not_fin _ _ C F).
Qed.
Lemma Bsub_law a b : Bfin (Bsub a b) -> Bfin a /\ Bfin b /\
  Rabs (Bval (Bsub a b) - (Bval a - Bval b)) <= Bu * Rabs (Bval a - Bval b) + Beta.
Proof.
  intro F. assert (FF : Bfin a /\ Bfin b).
  { destruct a as [[]|[]| |s m e H], b as [[]|[]| |s' m' e' H']; cbn in F; try discriminate F; split; reflexivity. }
  destruct FF as [Fa Fb]. split; [exact Fa|]. split; [exact Fb|].
  pose proof (Bminus_correct 53 1024 _ _ mode_NE a b Fa Fb) as C. cbn [round_mode] in C. unfold Bval, Bsub.
  destruct (Rlt_bool _ _).
  - destruct C as (-> & _). apply rnd_error.
  - destruct C as (C & _). exfalso. exact (overflow_not_fin _ _ C F).
Qed.
Lemma Bmul_law a b : Bfin (Bmul a b) -> Bfin a /\ Bfin b /\
  Rabs (Bval (Bmul a b) - Bval a * Bval b) <= Bu * Rabs (Bval a * Bval b) + Beta.
Proof.
  intro F. assert (FF : Bfin a /\ Bfin b).
  { destruct a as [[]|[]| |s m e H], b as [[]|[]| |s' m' e' H']; cbn in F; try discriminate F; split; reflexivity. }
  destruct FF as [Fa Fb]. split; [exact Fa|]. split; [exact Fb|].
  pose proof (Bmult_correct 53 1024 _ _ mode_NE a b) as C. cbn [round_mode] in C. unfold Bval, Bmul.
  destruct (Rlt_bool _ _).
  - destruct C as (-> & _). apply rnd_error.
  - exfalso. exact (overflow_not_fin _ _ C F).
Qed.
Lemma Bsqrt_law a : Bfin (Bsqrt_ a) -> Bfin a /\ 0 <= Bval a /\
  Rabs (Bval (Bsqrt_ a) - sqrt (Bval a)) <= Bu * sqrt (Bval a) + Beta.
Proof.
  intro F. destruct (Bsqrt_correct 53 1024 _ _ mode_NE a) as (E & Fi & _). unfold Bfin, Bsqrt_ in F. rewrite Fi in F.
  assert (Fa : Bfin a) by (destruct a as [|[]| |[]]; try discriminate F; reflexivity). split; [exact Fa|].
  assert (P : 0 <= Bval a).
  { destruct a as [|[]| |[] m e H]; try discriminate F; cbn; [lra|]. apply F2R_ge_0. cbn. lia. }
  split; [exact P|]. unfold Bval, Bsqrt_. rewrite E. cbn [round_mode].
  pose proof (rnd_error (sqrt (B2R a))) as R. rewrite (Rabs_pos_eq (sqrt (B2R a))) in R by apply sqrt_pos. exact R.
Qed.

(* inner products, left to right *)
Notation nr := (@near B64 Bval Bu Beta).
Lemma Bu_pos : 0 <= Bu. Proof. unfold Bu. pose proof (bpow_ge_0 radix2 (-53 + 1)). lra. Qed.
Lemma Beta_pos : 0 <= Beta. Proof. unfold Beta. pose proof (bpow_ge_0 radix2 (-1074)). lra. Qed.
Lemma Bint1 : Bfin (Bint 1) /\ Bval (Bint 1) = 1.
Proof.
  split; [vm_compute; reflexivity|].
  pose proof (binary_normalize_correct 53 1024 prec_pos prec_emax mode_NE 1 0 false) as C.
  assert (E : F2R (Float radix2 1 0) = 1) by (unfold F2R; cbn; lra). rewrite E in C. cbn [round_mode] in C.
  rewrite round_generic in C; [|auto with typeclass_instances|].
  - rewrite Rlt_bool_true in C.
    + destruct C as (C & _). exact C.
    + rewrite Rabs_R1. apply (bpow_lt radix2 0 1024). reflexivity.
  - rewrite <- E. apply generic_format_F2R. intros _. cbn. unfold cexp. rewrite E, mag_1. vm_compute. discriminate.
Qed.

Lemma Bsqrt_le_law a b : Bleb (Bsqrt_ a) b = true -> Bfin b -> Bfin (Bsqrt_ a).
Proof.
  intros H F. destruct (Bsqrt_correct 53 1024 _ _ mode_NE a) as (_ & Fi & _). unfold Bfin, Bsqrt_ in *. rewrite Fi.
  destruct a as [|[]| |[] m e Hb]; try reflexivity; cbn in H; destruct b as [|[]| |[] m' e' Hb']; try discriminate F; discriminate H.
Qed.
Lemma Bleb_law a b : Bfin a -> Bfin b -> (Bleb a b = true <-> Bval a <= Bval b).
Proof.
  intros Fa Fb. rewrite (Bleb_correct 53 1024 a b Fa Fb). unfold Bval. destruct (Rle_bool_spec (B2R a) (B2R b)); split; intro; try reflexivity; try assumption; try discriminate. lra.
Qed.
Lemma Bltb_law a b : Bfin a -> Bfin b -> (Bltb a b = true <-> Bval a < Bval b).
Proof.
  intros Fa Fb. rewrite (Bltb_correct 53 1024 a b Fa Fb). unfold Bval. destruct (Rlt_bool_spec (B2R a) (B2R b)); split; intro; try reflexivity; try assumption; try discriminate. lra.
Qed.
Lemma Binf_law a b y : Bfin a -> Bfin b -> Bltb a y = true -> Bfin y \/ Bltb b y = true.
Proof.
  intros Fa Fb H. destruct y as [|[]| |s m e Hy]; try (left; reflexivity).
  - destruct a as [|[]| |[] m e Ha]; try discriminate Fa; discriminate H.
  - right. destruct b as [|[]| |[] m e Hb]; try discriminate Fb; reflexivity.
  - destruct a as [|[]| |[] m e Ha]; try discriminate Fa; discriminate H.
Qed.
Lemma Beqb_law a b : Bfin a -> Bfin b -> (Beqb a b = true <-> Bval a = Bval b).
Proof.
  intros Fa Fb. rewrite (Beqb_correct 53 1024 a b Fa Fb). unfold Bval. destruct (Req_bool_spec (B2R a) (B2R b)); split; intro; try reflexivity; try assumption; try discriminate. contradiction.
Qed.
Lemma rnd_nonneg x : 0 <= x -> 0 <= rnd x.
Proof. intro H. apply round_ge_generic; [exact (FLT_exp_valid (-1074) 53)|auto with typeclass_instances|apply generic_format_0|exact H]. Qed.
Lemma Bsub_nonneg a b : Bfin (Bsub a b) -> Bval b <= Bval a -> 0 <= Bval (Bsub a b).
Proof.
  intros F L. destruct (Bsub_law a b F) as (Fa & Fb & _).
  pose proof (Bminus_correct 53 1024 _ _ mode_NE a b Fa Fb) as C. cbn [round_mode] in C. unfold Bval, Bsub in *.
  destruct (Rlt_bool _ _).
  - destruct C as (-> & _). apply rnd_nonneg. lra.
  - destruct C as (C & _). exfalso. exact (overflow_not_fin _ _ C F).
Qed.
Lemma Bmul_nonneg a b : Bfin (Bmul a b) -> 0 <= Bval a -> 0 <= Bval b -> 0 <= Bval (Bmul a b).
Proof.
  intros F L1 L2. destruct (Bmul_law a b F) as (Fa & Fb & _).
  pose proof (Bmult_correct 53 1024 _ _ mode_NE a b) as C. cbn [round_mode] in C. unfold Bval, Bmul in *.
  destruct (Rlt_bool _ _).
  - destruct C as (-> & _). apply rnd_nonneg. apply Rmult_le_pos; assumption.
  - exfalso. exact (overflow_not_fin _ _ C F).
Qed.
Lemma Bmul_zero a b : Bfin (Bmul a b) -> Bval a = 0 \/ Bval b = 0 -> Bval (Bmul a b) = 0.
Proof.
  intros F L. pose proof (Bmult_correct 53 1024 _ _ mode_NE a b) as C. cbn [round_mode] in C. unfold Bval, Bmul in *.
  destruct (Rlt_bool _ _).
  - destruct C as (-> & _). replace (B2R a * B2R b) with 0 by (destruct L as [-> | ->]; ring). apply round_0. auto with typeclass_instances.
  - exfalso. exact (overflow_not_fin _ _ C F).
Qed.
Lemma Beta_le1 : Beta <= 1.
Proof. unfold Beta. pose proof (bpow_le radix2 (-1074) 0 ltac:(lia)) as H. change (bpow radix2 0) with 1 in H. lra. Qed.
(* the laws without the inner product *)
Lemma Bcore (dot : list B64 -> list B64 -> B64) :
  (forall x y, length x = length y -> Bfin (dot x y) ->
    (forall i, (i < length x)%nat -> Bfin (vget Bops x i) /\ Bfin (vget Bops y i)) /\
    Rabs (Bval (dot x y) - rsum (length x) (fun i => Bval (vget Bops x i) * Bval (vget Bops y i))) <=
      ((1 + Bu) ^ (length x + 1) - 1) * rsum (length x) (fun i => Rabs (Bval (vget Bops x i) * Bval (vget Bops y i))) +
      (1 + Bu) ^ (length x + 1) * (2 * INR (length x)) * Beta) ->
  Rounded (mkOps (B754_zero false) (Bint 1) Bdec Badd Bsub Bmul Bdiv_ (fun x => Bopp x) Bsqrt_ (fun x => Babs x)
        Bltb Bleb Beqb dot Bmaxc) Bfin Bval Bu Beta.
Proof.
  intro Dt. constructor; cbn [o_zero o_one o_add o_sub o_mul o_opp o_sqrt o_leb o_ltb o_eqb o_dot].
  - exact Bu_pos.
  - exact Beta_pos.
  - exact Beta_le1.
  - split; reflexivity.
  - exact Bint1.
  - intros a F. unfold Bfin in *. rewrite is_finite_Bopp in F. exact F.
  - intros a F. unfold Bfin, Bval in *. rewrite is_finite_Bopp, B2R_Bopp. split; [exact F|reflexivity].
  - exact Badd_law.
  - exact Bsub_law.
  - exact Bmul_law.
  - exact Bsqrt_law.
  - exact Bsqrt_le_law.
  - exact Bleb_law.
  - exact Bltb_law.
  - exact Beqb_law.
  - exact Bsub_nonneg.
  - exact Bmul_nonneg.
  - exact Bmul_zero.
  - exact Binf_law.
  - exact Dt.
Qed.
Lemma Brounded_core : Rounded (mkOps (B754_zero false) (Bint 1) Bdec Badd Bsub Bmul Bdiv_ (fun x => Bopp x) Bsqrt_ (fun x => Babs x)
        Bltb Bleb Beqb (fun _ _ => B754_nan) Bmaxc) Bfin Bval Bu Beta.
Proof. apply Bcore. intros x y _ F. discriminate F. Qed.

Lemma near_acc x : forall y acc k c m v, length x = length y -> 0 <= c -> Bfin (Bdot_acc acc x y) ->
  (1 <= k)%nat -> (Bfin acc -> nr k c m acc v) ->
  Bfin acc /\ (forall i, (i < length x)%nat -> Bfin (vget Bops x i) /\ Bfin (vget Bops y i)) /\
  nr (k + length x) (c + 2 * INR (length x)) (m + rsum (length x) (fun i => Rabs (Bval (vget Bops x i) * Bval (vget Bops y i))))
     (Bdot_acc acc x y) (v + rsum (length x) (fun i => Bval (vget Bops x i) * Bval (vget Bops y i))).
Proof.
  induction x as [|a x IH]; intros [|b y] acc k c m v L C F K N; try discriminate L.
  - cbn [Bdot_acc] in *. split; [exact F|]. split; [cbn; intros; lia|]. cbn [length rsum INR].
    rewrite Nat.add_0_r, !Rplus_0_r, Rmult_0_r, Rplus_0_r. apply N. exact F.
  - cbn [Bdot_acc] in *. injection L as L.
    assert (NX : Bfin (Badd acc (Bmul a b)) -> nr (k + 1) (c + 2) (m + Rabs (Bval a * Bval b)) (Badd acc (Bmul a b)) (v + Bval a * Bval b)).
    { intro F1. destruct (Badd_law _ _ F1) as (Fa & Fp & _).
      pose proof (N Fa) as NA.
      destruct (Bmul_law _ _ Fp) as (_ & _ & EM).
      replace (c + 2) with (c + 1 + 1) by ring. apply (near_add Brounded_core k c 1 m (Rabs (Bval a * Bval b)) acc (Bmul a b) v (Bval a * Bval b)); [exact C|lra|exact F1|exact NA|].
      eapply (near_weaken Brounded_core 1 1); [|exact K|lra|apply Rle_refl].
      split; [apply Rle_refl|]. pose proof (Rmult_le_pos _ _ Bu_pos Beta_pos).
      replace (((1 + Bu) ^ 1 - 1) * Rabs (Bval a * Bval b) + (1 + Bu) ^ 1 * 1 * Beta) with
        (Bu * Rabs (Bval a * Bval b) + Beta + Bu * Beta) by ring. lra. }
    destruct (IH y (Badd acc (Bmul a b)) (k + 1)%nat (c + 2) (m + Rabs (Bval a * Bval b)) (v + Bval a * Bval b) L ltac:(lra) F ltac:(lia) NX) as (F1 & F2 & F3).
    destruct (Badd_law _ _ F1) as (Fa & Fp & _). destruct (Bmul_law _ _ Fp) as (Fx & Fy & _).
    split; [exact Fa|]. split.
    + intros [|i] Hi; [split; assumption|]. apply (F2 i). cbn in Hi. lia.
    + rewrite !(rsum_first (length x)). change (vget Bops (a :: x) 0) with a. change (vget Bops (b :: y) 0) with b.
      cbn [length]. rewrite S_INR.
      replace (k + S (length x))%nat with (k + 1 + length x)%nat by lia.
      replace (c + 2 * (INR (length x) + 1)) with (c + 2 + 2 * INR (length x)) by ring.
      rewrite <- !Rplus_assoc. exact F3.
Qed.

Theorem Brounded : Rounded Bops Bfin Bval Bu Beta.
Proof.
  apply Bcore. intros x y L F. unfold Bdot in F |- *.
  destruct (near_acc x y (B754_zero false) 1 0 0 0 L (Rle_refl 0) F (Nat.le_refl 1)) as (_ & H1 & H2).
  - intros _. split; [rewrite Rabs_R0; lra|]. change (Bval (B754_zero false)) with 0. rewrite Rminus_0_r, Rabs_R0. lra.
  - split; [exact H1|]. destruct H2 as [_ H2]. rewrite !Rplus_0_l in H2. rewrite (Nat.add_comm (length x) 1). exact H2.
Qed.
