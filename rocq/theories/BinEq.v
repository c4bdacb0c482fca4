(* The two readings of IEEE binary64 agree: B2SF carries every operation of Bops (Flocq) to the operation of
   Fops (stdlib spec_float).  The proofs follow Flocq's IEEE754/PrimFloat.v, without primitive floats. *)
From Verif Require Import Scalar BinOps.
From Flocq Require Import Core.Core IEEE754.BinarySingleNaN.
From Coq Require Import Floats.SpecFloat.

Lemma rne_equiv s m l : round_nearest_even m l = choice_mode mode_NE s m l.
Proof. destruct l as [|[]]; try reflexivity. simpl. unfold Round.cond_incr. destruct (Z.even m); reflexivity. Qed.
Lemma round_aux_equiv sx mx ex lx :
  SpecFloat.binary_round_aux 53 1024 sx mx ex lx = BinarySingleNaN.binary_round_aux 53 1024 mode_NE sx mx ex lx.
Proof.
  unfold SpecFloat.binary_round_aux, BinarySingleNaN.binary_round_aux.
  set (q := shr_fexp _ _ _ _ _). destruct q as [a b]. cbv beta iota. rewrite (rne_equiv sx). reflexivity.
Qed.
Lemma round_equiv s m e : SpecFloat.binary_round 53 1024 s m e = BinarySingleNaN.binary_round 53 1024 mode_NE s m e.
Proof.
  unfold SpecFloat.binary_round, BinarySingleNaN.binary_round, shl_align_fexp.
  set (q := shl_align _ _ _). destruct q as [a b]. apply round_aux_equiv.
Qed.
Lemma normalize_equiv m e z :
  SpecFloat.binary_normalize 53 1024 m e z = B2SF (BinarySingleNaN.binary_normalize 53 1024 prec_pos prec_emax mode_NE m e z).
Proof. destruct m; simpl; [reflexivity|rewrite B2SF_SF2B; apply round_equiv..]. Qed.

Theorem add_eq x y : B2SF (Badd x y) = Fadd (B2SF x) (B2SF y).
Proof.
  destruct x as [sx|sx| |sx mx ex Bx], y as [sy|sy| |sy my ey By]; try (cbn; try destruct (Bool.eqb _ _); reflexivity).
  symmetry. apply normalize_equiv.
Qed.
Theorem sub_eq x y : B2SF (Bsub x y) = Fsub (B2SF x) (B2SF y).
Proof.
  destruct x as [sx|sx| |sx mx ex Bx], y as [sy|sy| |sy my ey By]; try (cbn; try destruct (Bool.eqb _ _); reflexivity).
  symmetry. unfold Bsub, Fsub. simpl. unfold Zminus. rewrite <- cond_Zopp_negb. apply normalize_equiv.
Qed.
Theorem mul_eq x y : B2SF (Bmul x y) = Fmul (B2SF x) (B2SF y).
Proof.
  destruct x as [sx|sx| |sx mx ex Bx], y as [sy|sy| |sy my ey By]; try reflexivity.
  unfold Bmul, Fmul. simpl. rewrite B2SF_SF2B. symmetry. apply round_aux_equiv.
Qed.
Theorem div_eq x y : B2SF (Bdiv_ x y) = Fdiv (B2SF x) (B2SF y).
Proof.
  destruct x as [sx|sx| |sx mx ex Bx], y as [sy|sy| |sy my ey By]; try reflexivity.
  unfold Bdiv_, Fdiv. simpl. rewrite B2SF_SF2B. symmetry.
  change (SFdiv_core_binary fprec femax) with (SFdiv_core_binary 53 1024).
  set (q := SFdiv_core_binary _ _ _ _ _ _). destruct q as [[a b] c]. apply round_aux_equiv.
Qed.
Theorem sqrt_eq x : B2SF (Bsqrt_ x) = Fsqrt (B2SF x).
Proof.
  destruct x as [sx|[|]| |[|] mx ex Bx]; try reflexivity.
  unfold Bsqrt_, Fsqrt. simpl. rewrite B2SF_SF2B. symmetry.
  change (SFsqrt_core_binary fprec femax) with (SFsqrt_core_binary 53 1024).
  set (q := SFsqrt_core_binary _ _ _ _). destruct q as [[a b] c]. apply round_aux_equiv.
Qed.
Theorem int_eq z : B2SF (Bint z) = Fint z.
Proof. symmetry. apply normalize_equiv. Qed.
Theorem dec_eq m e : B2SF (Bdec m e) = Fdec m e.
Proof. unfold Bdec, Fdec. destruct (0 <=? e)%Z; [apply int_eq|]. rewrite div_eq, !int_eq. reflexivity. Qed.
Lemma dot_eq x y : B2SF (Bdot x y) = Fdot (map B2SF x) (map B2SF y).
Proof.
  unfold Bdot, Fdot. change (S754_zero false) with (B2SF (B754_zero false : B64)). generalize (B754_zero false : B64).
  revert y. induction x as [|a x IH]; intros [|b y] acc; try reflexivity. cbn. rewrite IH, add_eq, mul_eq. reflexivity.
Qed.
Lemma maxc_eq x : B2SF (Bmaxc x) = Fmaxc (map B2SF x).
Proof.
  destruct x as [|a x]; [reflexivity|]. cbn. revert a. induction x as [|b x IH]; intro a; [reflexivity|]. cbn.
  rewrite IH. unfold Bltb. destruct (SFltb (B2SF a) (B2SF b)); reflexivity.
Qed.
Theorem Bops_Fops :
  B2SF (o_zero Bops) = o_zero Fops /\ B2SF (o_one Bops) = o_one Fops /\ (forall m e, B2SF (o_dec Bops m e) = o_dec Fops m e) /\
  (forall x y, B2SF (o_add Bops x y) = o_add Fops (B2SF x) (B2SF y)) /\
  (forall x y, B2SF (o_sub Bops x y) = o_sub Fops (B2SF x) (B2SF y)) /\
  (forall x y, B2SF (o_mul Bops x y) = o_mul Fops (B2SF x) (B2SF y)) /\
  (forall x y, B2SF (o_div Bops x y) = o_div Fops (B2SF x) (B2SF y)) /\
  (forall x, B2SF (o_opp Bops x) = o_opp Fops (B2SF x)) /\ (forall x, B2SF (o_sqrt Bops x) = o_sqrt Fops (B2SF x)) /\
  (forall x, B2SF (o_abs Bops x) = o_abs Fops (B2SF x)) /\ (forall x y, o_ltb Bops x y = o_ltb Fops (B2SF x) (B2SF y)) /\
  (forall x y, o_leb Bops x y = o_leb Fops (B2SF x) (B2SF y)) /\ (forall x y, o_eqb Bops x y = o_eqb Fops (B2SF x) (B2SF y)) /\
  (forall x y, B2SF (o_dot Bops x y) = o_dot Fops (map B2SF x) (map B2SF y)) /\
  (forall x, B2SF (o_maxc Bops x) = o_maxc Fops (map B2SF x)).
Proof.
  split; [reflexivity|]. split; [apply int_eq|]. split; [apply dec_eq|]. split; [apply add_eq|]. split; [apply sub_eq|].
  split; [apply mul_eq|]. split; [apply div_eq|]. split; [intros []; reflexivity|]. split; [apply sqrt_eq|].
  split; [intros []; reflexivity|]. do 3 (split; [reflexivity|]). split; [apply dot_eq|apply maxc_eq].
Qed.
