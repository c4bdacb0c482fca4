(* IEEE binary64 without overflow: BinOps.v satisfies the laws of FwdFloat.v with the bound 2^1023. *)
From Coq Require Import ZArith Reals Lra Lia.
From Verif Require Export FwdFloat BinOps.
From Flocq Require Import Core.Core Relative IEEE754.BinarySingleNaN.
Local Open Scope R_scope.

Definition Bbig : R := bpow radix2 1023.
Lemma Bbig_eq : Bbig = 2 ^ 1023.
Proof. unfold Bbig. rewrite bpow_powerRZ. change 1023%Z with (Z.of_nat 1023). rewrite <- pow_powerRZ. reflexivity. Qed.
Lemma rnd_small x : Rabs x <= Bbig -> Rabs (rnd x) < bpow radix2 1024.
Proof.
  intro H. apply Rle_lt_trans with Bbig; [|apply bpow_lt; lia].
  apply abs_round_le_generic; [exact (FLT_exp_valid (-1074) 53)|auto with typeclass_instances| |exact H].
  apply generic_format_bpow. vm_compute. discriminate.
Qed.
Lemma Badd_fin a b : Bfin a -> Bfin b -> Rabs (Bval a) + Rabs (Bval b) <= Bbig -> Bfin (Badd a b).
Proof.
  intros Fa Fb H. pose proof (Bplus_correct 53 1024 _ _ mode_NE a b Fa Fb) as C. cbn [round_mode] in C.
  rewrite Rlt_bool_true in C; [apply C|]. apply rnd_small. eapply Rle_trans; [apply Rabs_triang|exact H].
Qed.
Lemma Bsub_fin a b : Bfin a -> Bfin b -> Rabs (Bval a) + Rabs (Bval b) <= Bbig -> Bfin (Bsub a b).
Proof.
  intros Fa Fb H. pose proof (Bminus_correct 53 1024 _ _ mode_NE a b Fa Fb) as C. cbn [round_mode] in C.
  rewrite Rlt_bool_true in C; [apply C|]. apply rnd_small. unfold Rminus. eapply Rle_trans; [apply Rabs_triang|]. rewrite Rabs_Ropp. exact H.
Qed.
Lemma Bmul_fin a b : Bfin a -> Bfin b -> Rabs (Bval a * Bval b) <= Bbig -> Bfin (Bmul a b).
Proof.
  intros Fa Fb H. pose proof (Bmult_correct 53 1024 _ _ mode_NE a b) as C. cbn [round_mode] in C.
  rewrite Rlt_bool_true in C; [|apply rnd_small; exact H]. destruct C as (_ & C & _). unfold Bfin, Bmul in *. rewrite C, Fa, Fb. reflexivity.
Qed.
Lemma Bdot_fin x : forall y acc k c m v, length x = length y -> 0 <= c -> (1 <= k)%nat ->
  (forall i, (i < length x)%nat -> Bfin (vget Bops x i) /\ Bfin (vget Bops y i)) -> Bfin acc -> nr k c m acc v ->
  (1 + Bu) ^ (k + length x) * (m + rsum (length x) (fun i => Rabs (Bval (vget Bops x i) * Bval (vget Bops y i))) + (c + 2 * INR (length x)) * Beta) <= Bbig ->
  Bfin (Bdot_acc acc x y).
Proof.
  pose proof Bu_pos as Hu. pose proof Beta_pos as He.
  induction x as [|a x IH]; intros [|b y] acc k c m v L C K F Fa N H; try discriminate L; cbn [Bdot_acc]; [exact Fa|].
  injection L as L. rewrite (rsum_first (length x)) in H. change (vget Bops (a :: x) 0) with a in H. change (vget Bops (b :: y) 0) with b in H.
  cbn [length] in H. rewrite S_INR in H. cbv beta in H.
  rewrite (rsum_ext (length x) (fun i => Rabs (Bval (vget Bops (a :: x) (S i)) * Bval (vget Bops (b :: y) (S i))))
    (fun i => Rabs (Bval (vget Bops x i) * Bval (vget Bops y i)))) in H by reflexivity.
  set (Q := rsum (length x) _) in *. assert (Q0 : 0 <= Q) by (apply rsum_nonneg; intros; apply Rabs_pos).
  destruct (F 0%nat ltac:(cbn; lia)) as (F1 & F2). change (vget Bops (a :: x) 0) with a in F1. change (vget Bops (b :: y) 0) with b in F2.
  pose proof (near_m _ _ _ _ _ N) as M0. pose proof (Rabs_pos (Bval a * Bval b)) as A0. pose proof (pos_INR (length x)) as I0.
  set (ab := Rabs (Bval a * Bval b)) in *.
  assert (EB : forall j, 0 <= j -> 0 <= j * Beta) by (intros; apply Rmult_le_pos; lra).
  pose proof (pw_ge1 Brounded (k + S (length x))) as P1. set (W := (1 + Bu) ^ (k + S (length x))) in *.
  pose proof (EB c C) as E1. pose proof (EB (2 * INR (length x)) ltac:(lra)) as E2.
  assert (TOT : m + ab + (c + 1) * Beta <= m + (ab + Q) + (c + 2 * (INR (length x) + 1)) * Beta) by nra.
  assert (T0 : 0 <= m + ab + (c + 1) * Beta) by nra.
  assert (Fm : Bfin (Bmul a b)).
  { apply Bmul_fin; auto. fold ab. nra. }
  destruct (Bmul_law _ _ Fm) as (_ & _ & EM).
  assert (NM : nr k 1 ab (Bmul a b) (Bval a * Bval b)).
  { eapply (near_weaken Brounded 1 1); [|exact K|lra|apply Rle_refl]. split; [apply Rle_refl|]. pose proof (Rmult_le_pos _ _ Hu He).
    replace (((1 + Bu) ^ 1 - 1) * ab + (1 + Bu) ^ 1 * 1 * Beta) with (Bu * ab + Beta + Bu * Beta) by ring. unfold ab. lra. }
  assert (FA : Bfin (Badd acc (Bmul a b))).
  { apply Badd_fin; auto. pose proof (near_abs Brounded _ _ _ _ _ N) as X1. pose proof (near_abs Brounded _ _ _ _ _ NM) as X2.
    pose proof (pw_mono Brounded k (k + S (length x)) ltac:(lia)) as PM. fold W in PM. pose proof (pw_ge1 Brounded k) as P2.
    assert (X : (1 + Bu) ^ k * (m + ab + (c + 1) * Beta) <= W * (m + (ab + Q) + (c + 2 * (INR (length x) + 1)) * Beta)) by (apply Rmult_le_compat; lra). lra. }
  apply (IH y _ (k + 1)%nat (c + 2) (m + ab) (v + Bval a * Bval b)); auto; [lra|lia| | |].
  - intros i Hi. apply (F (S i)). cbn. lia.
  - replace (c + 2) with (c + 1 + 1) by ring. apply (near_add Brounded k c 1 m ab acc (Bmul a b) v (Bval a * Bval b)); [exact C|lra|exact FA|exact N|exact NM].
  - fold Q. replace (k + 1 + length x)%nat with (k + S (length x))%nat by lia. fold W. eapply Rle_trans; [|exact H]. right. ring.
Qed.
Lemma Bmaxc_fin v : forall acc, Bfin acc -> (forall i, (i < length v)%nat -> Bfin (vget Bops v i)) ->
  Bfin (Bmaxc_acc acc v) /\ Bval acc <= Bval (Bmaxc_acc acc v) /\
  (forall i, (i < length v)%nat -> Bval (vget Bops v i) <= Bval (Bmaxc_acc acc v)) /\
  (Bval (Bmaxc_acc acc v) = Bval acc \/ exists i, (i < length v)%nat /\ Bval (Bmaxc_acc acc v) = Bval (vget Bops v i)).
Proof.
  induction v as [|a v IH]; intros acc Fa F; cbn [Bmaxc_acc].
  - split; [exact Fa|]. split; [lra|]. split; [cbn; intros; lia|left; reflexivity].
  - assert (F0 : Bfin a) by (apply (F 0%nat); cbn; lia).
    assert (FV : forall i, (i < length v)%nat -> Bfin (vget Bops v i)) by (intros i Hi; apply (F (S i)); cbn; lia).
    set (b := if Bltb acc a then a else acc).
    assert (B : Bfin b /\ Bval acc <= Bval b /\ Bval a <= Bval b /\ (Bval b = Bval acc \/ Bval b = Bval a)).
    { unfold b. destruct (Bltb acc a) eqn:E.
      - apply (Bltb_law acc a Fa F0) in E. split; [exact F0|]. split; [lra|]. split; [lra|right; reflexivity].
      - split; [exact Fa|]. split; [lra|]. split; [|left; reflexivity]. destruct (Rle_dec (Bval a) (Bval acc)); [assumption|].
        assert (X : Bltb acc a = true) by (apply Bltb_law; auto; lra). congruence. }
    destruct B as (B1 & B2 & B3 & B4). destruct (IH b B1 FV) as (I1 & I2 & I3 & I4).
    split; [exact I1|]. split; [lra|]. split.
    + intros [|i] Hi; [change (vget Bops (a :: v) 0) with a; lra|]. apply (I3 i). cbn in Hi. lia.
    + destruct I4 as [I4|(i & Hi & I4)].
      * destruct B4 as [B4|B4]; [left; congruence|right; exists 0%nat; split; [cbn; lia|]]. change (vget Bops (a :: v) 0) with a. congruence.
      * right. exists (S i). split; [cbn; lia|exact I4].
Qed.

Theorem Branged : Ranged Bops Bfin Bval Bu Beta Bbig.
Proof.
  constructor.
  - unfold Bbig. change 1 with (bpow radix2 0). apply bpow_le. lia.
  - exact Badd_fin.
  - exact Bsub_fin.
  - exact Bmul_fin.
  - intros a F. unfold Bfin, Bval in *. cbn [o_abs Bops]. rewrite is_finite_Babs, B2R_Babs. split; [exact F|reflexivity].
  - intros x y L F H. cbn [o_dot Bops]. unfold Bdot. apply (Bdot_fin x y _ 1 0 0 0); auto; [lra|reflexivity| |].
    + split; [rewrite Rabs_R0; lra|]. change (Bval (B754_zero false)) with 0. rewrite Rminus_0_r, Rabs_R0. lra.
    + rewrite Rplus_0_l, Rplus_0_l, (Nat.add_comm 1). exact H.
  - intros [|a v] P F; [cbn in P; lia|]. cbn [o_maxc Bops Bmaxc].
    destruct (Bmaxc_fin v a) as (I1 & I2 & I3 & I4).
    + apply (F 0%nat). cbn. lia.
    + intros i Hi. apply (F (S i)). cbn. lia.
    + split; [exact I1|]. split.
      * intros [|i] Hi; [exact I2|]. apply (I3 i). cbn in Hi. lia.
      * destruct I4 as [I4|(i & Hi & I4)]; [exists 0%nat; split; [cbn; lia|exact I4]|exists (S i); split; [cbn; lia|exact I4]].
Qed.
