(* C72 continued: on doubles, smaller tolerances stop later; and calls that meet the hypotheses of C72. *)
From Coq Require Import ZArith Reals Lra Lia List Bool.
From Verif Require Import PropsBudget BinOps Examples.
From Flocq Require Import Core.Core IEEE754.BinarySingleNaN.
Import ListNotations.
Local Open Scope R_scope.

(* ---------- doubles: rounding is monotone ---------- *)
Notation rnd x := (round radix2 (SpecFloat.fexp 53 1024) ZnearestE x).
Lemma rnd_le x y : x <= y -> rnd x <= rnd y.
Proof. apply round_le; [exact (FLT_exp_valid (-1074) 53)|auto with typeclass_instances]. Qed.
Lemma small_below x y : 0 <= x <= y -> Rabs (rnd y) < bpow radix2 1024 -> Rabs (rnd x) < bpow radix2 1024.
Proof.
  intros [H0 H1] H. pose proof (rnd_nonneg x H0). pose proof (rnd_le x y H1).
  rewrite Rabs_pos_eq in H by lra. rewrite Rabs_pos_eq; lra.
Qed.
Lemma Bmul_mono a a' c : Bfin (Bmul a c) -> Bfin a' -> 0 <= Bval a' <= Bval a -> 0 <= Bval c ->
  Bfin (Bmul a' c) /\ 0 <= Bval (Bmul a' c) <= Bval (Bmul a c).
Proof.
  intros F Fa' L Lc. destruct (Bmul_law a c F) as (Fa & Fc & _).
  assert (P : 0 <= Bval a' * Bval c <= Bval a * Bval c) by (split; [apply Rmult_le_pos; lra|apply Rmult_le_compat_r; lra]).
  pose proof (Bmult_correct 53 1024 _ _ mode_NE a c) as C. pose proof (Bmult_correct 53 1024 _ _ mode_NE a' c) as C'.
  cbn [round_mode] in C, C'. unfold Bval, Bmul, Bfin in *.
  destruct (Rlt_bool_spec (Rabs (rnd (B2R a * B2R c))) (bpow radix2 1024)) as [S|S].
  2: exfalso; exact (overflow_not_fin _ _ C F).
  rewrite Rlt_bool_true in C' by exact (small_below _ _ P S).
  destruct C as (-> & _), C' as (E' & F' & _). rewrite E', F', Fa', Fc. split; [reflexivity|].
  split; [apply rnd_nonneg; lra|apply rnd_le; lra].
Qed.
Lemma Badd_mono a a' c c' : Bfin (Badd a c) -> Bfin a' -> Bfin c' -> 0 <= Bval a' <= Bval a -> 0 <= Bval c' <= Bval c ->
  Bfin (Badd a' c') /\ Bval (Badd a' c') <= Bval (Badd a c).
Proof.
  intros F Fa' Fc' L Lc. destruct (Badd_law a c F) as (Fa & Fc & _).
  assert (P : 0 <= Bval a' + Bval c' <= Bval a + Bval c) by lra.
  pose proof (Bplus_correct 53 1024 _ _ mode_NE a c Fa Fc) as C. pose proof (Bplus_correct 53 1024 _ _ mode_NE a' c' Fa' Fc') as C'.
  cbn [round_mode] in C, C'. unfold Bval, Badd, Bfin in *.
  destruct (Rlt_bool_spec (Rabs (rnd (B2R a + B2R c))) (bpow radix2 1024)) as [S|S].
  2: destruct C as (C & _); exfalso; exact (overflow_not_fin _ _ C F).
  rewrite Rlt_bool_true in C' by exact (small_below _ _ P S).
  destruct C as (-> & _), C' as (E' & F' & _). rewrite E', F'. split; [reflexivity|]. apply rnd_le; lra.
Qed.
Lemma tighter_B t t' : Bfin t -> Bfin t' -> Bval t' <= Bval t -> tighter Bops t t'.
Proof.
  intros F F' L E HE. cbn [o_leb Bops] in *. destruct (is_finite E) eqn:FE.
  - apply (Bleb_law E t FE F). apply (Bleb_law E t' FE F') in HE. lra.
  - destruct E as [|[]| |]; try discriminate FE; destruct t as [[]|[]| |[]], t' as [[]|[]| |[]]; try discriminate; try reflexivity.
Qed.
(* tolerances are doubles and the first one is finite *)
Theorem C72_smaller_tolerances_doubles : forall D (DI : DataI B64 D) d (o o' : params B64),
  Bfin (tolerance Bops DI d o) -> 0 <= Bval (di_fnorm DI d) -> Bfin (p_abs_tol o') -> Bfin (p_rel_tol o') ->
  0 <= Bval (p_abs_tol o') <= Bval (p_abs_tol o) -> 0 <= Bval (p_rel_tol o') <= Bval (p_rel_tol o) ->
  tighter Bops (tolerance Bops DI d o) (tolerance Bops DI d o').
Proof.
  intros D DI d o o' F N Fa Fr La Lr. unfold tolerance in *. cbn [o_add o_mul o_one Bops] in *.
  destruct (Badd_law _ _ F) as (_ & F2 & _). destruct (Bmul_law _ _ F2) as (_ & F3 & _).
  assert (P : 0 <= Bval (Badd (Bint 1) (di_fnorm DI d))).
  { destruct (Badd_law _ _ F3) as (F4 & F5 & _). pose proof (Bplus_correct 53 1024 _ _ mode_NE _ _ F4 F5) as C.
    cbn [round_mode] in C. unfold Bval, Badd, Bfin in *. destruct (Rlt_bool _ _).
    - destruct C as (-> & _). apply rnd_nonneg. destruct Bint1 as (_ & B1). unfold Bval in B1. rewrite B1. lra.
    - destruct C as (C & _). exfalso. exact (overflow_not_fin _ _ C F3). }
  destruct (Bmul_mono _ _ _ F2 Fr Lr P) as (G1 & G2).
  destruct (Badd_mono _ _ _ _ F Fa G1 La G2) as (G3 & G4). exact (tighter_B _ _ F G3 G4).
Qed.

(* ---------- calls that meet the hypotheses ---------- *)
Local Open Scope Z_scope.
Local Open Scope list_scope.
Definition with_check (b : bool) (o : params F64) : params F64 :=
  mkParams (p_sigma0 o) (p_sigma_max o) (p_sigma_min o) (p_alpha o) (p_beta o) (p_eta o) (p_delta o)
    (p_gamma o) (p_abs_tol o) (p_rel_tol o) (p_stall_tol o) (p_infeas_tol o) (p_inner_tol_max o)
    (p_inner_tol_min o) (p_max_newton o) (p_max_prox o) (p_max_inner o) (p_max_ls o) b (p_nonmonotone o) (p_display o).
Definition with_abs_tol (t : F64) (o : params F64) : params F64 :=
  mkParams (p_sigma0 o) (p_sigma_max o) (p_sigma_min o) (p_alpha o) (p_beta o) (p_eta o) (p_delta o)
    (p_gamma o) t (p_rel_tol o) (p_stall_tol o) (p_infeas_tol o) (p_inner_tol_max o)
    (p_inner_tol_min o) (p_max_newton o) (p_max_prox o) (p_max_inner o) (p_max_ls o) (p_check_feas o) (p_nonmonotone o) (p_display o).
Lemma tighter_refl {T} (O : Ops T) t : tighter O t t. Proof. intros E H. exact H. Qed.
Lemma tighter_F t t' : o_leb Fops t' t = true -> tighter Fops t t'.
Proof. intros H E HE. eapply (ol_trans _ _ ord_F); [exact HE|exact H]. Qed.

(* one fresh FBstabDense(2,0,nv) given o1, or given o2, and how the two calls end *)
Definition two_calls nv (qp : dense_qp F64) (o1 o2 : params F64) (sum1 sum2 : res (exit_flag * Z * Z)) : Prop :=
  exists s x, dense_reach Fops LAF 2 0 nv s /\
    let s1 := fst (FBstabDense_UpdateOptions Fops s o1) in
    let s2 := fst (FBstabDense_UpdateOptions Fops s o2) in
    stops_later Fops (ds_options s1) (ds_options s2) /\
    (forall d, bound_dense Fops qp d ->
       tighter Fops (tolerance Fops (denseDI Fops) d (ds_options s1)) (tolerance Fops (denseDI Fops) d (ds_options s2))) /\
    y_fits Owned x (Z.to_nat nv) /\
    summary (snd (FBstabDense_Solve Fops LAF s1 qp Owned x (Fint 0))) = sum1 /\
    summary (snd (FBstabDense_Solve Fops LAF s2 qp Owned x (Fint 0))) = sum2.
Ltac later := constructor; match goal with
  | |- tighter _ ?a ?b => replace b with a by (vm_compute; reflexivity); apply tighter_refl
  | |- _ -> _ => let H := fresh in intro H; first [split; vm_compute; reflexivity | exfalso; vm_compute in H; discriminate H]
  | |- (_ <= _)%Z => vm_compute; discriminate
  | |- _ => vm_compute; reflexivity end.
Ltac two_runs nv x := let t := eval vm_compute in (FBstabDense_new Fops g0 2 0 nv) in
  match t with Ok ?s => exists s, x end; split; [apply (dr_new Fops LAF 2 0 nv g0); vm_compute; reflexivity|];
  cbv zeta; split; [later|]; split; [let d := fresh in let H := fresh in intros d H; vm_compute in H; injection H as <-;
    apply tighter_F; vm_compute; reflexivity|]; split; [exact I|]; split; vm_compute; reflexivity.
(* a Newton limit; an abs_tol of 10; the infeasibility test *)
Example C72_limit_example : two_calls 2 qp_ok (with_limits 2 30 50 20 dflt) dflt (Ok (MAXITERATIONS, 2, 0)) (Ok (SUCCESS, 5, 2)).
Proof. two_runs 2%Z (fx_ [0;0] [] [0;0] []). Qed.
Example C72_tolerance_example : two_calls 2 qp_ok (with_abs_tol (Fint 1) dflt) dflt (Ok (SUCCESS, 4, 1)) (Ok (SUCCESS, 5, 2)).
Proof. two_runs 2%Z (fx_ [0;0] [] [0;0] []). Qed.
Example C72_check_example : two_calls 5 qp_infeasible dflt (with_check false dflt) (Ok (PRIMAL_INFEASIBLE, 8, 1)) (Ok (MAXITERATIONS, 200, 7)).
Proof. two_runs 5%Z (fx_ [0;0] [] [0;0;0;0;0] []). Qed.
(* FBstabMpc: two objects *)
Example C72_mpc_example : exists s1 s2 x, mpc_reach Fops LAF 2 1 1 1 s1 /\ mpc_reach Fops LAF 2 1 1 1 s2 /\
  more_iterations Fops (mps_options s1) (mps_options s2) /\ same_guess x x /\ seqs_valid ocp /\ single_columns ocp /\
  summary (snd (FBstabMpc_Solve Fops LAF s1 ocp Owned x (Fint 0))) = Ok (MAXITERATIONS, 2, 0) /\
  summary (snd (FBstabMpc_Solve Fops LAF s2 ocp Owned x (Fint 0))) = Ok (SUCCESS, 5, 2).
Proof.
  let t := eval vm_compute in (FBstabMpc_new Fops g0 2 1 1 1) in match t with Ok ?s =>
    exists (fst (FBstabMpc_UpdateOptions Fops s (with_limits 2 30 50 20 dflt))), (fst (FBstabMpc_UpdateOptions Fops s dflt)),
      (fx_ [0;0;0;0;0;0] [0;0;0] [0;0;0] [0;0;0]) end.
  split; [apply mr_update, (mr_new Fops LAF 2 1 1 1 g0); vm_compute; reflexivity|].
  split; [apply mr_update, (mr_new Fops LAF 2 1 1 1 g0); vm_compute; reflexivity|].
  split; [constructor; [later|..]; vm_compute; reflexivity|]. split; [repeat split|].
  split; [apply ocp_valid|]. split; [apply ocp_valid|]. split; vm_compute; reflexivity.
Qed.
Print Assumptions C72_smaller_tolerances_doubles.
