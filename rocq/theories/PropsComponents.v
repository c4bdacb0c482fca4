(* C46: which documented preconditions of the component classes are enforced by an exception,
   for any arithmetic, and which are not. *)
From Verif Require Import Examples.
From Coq Require Import Floats.SpecFloat.

(* objects of different sizes *)
Definition var_sizes_differ {T D} (x y : fvar T D) : Prop := fv_nz x <> fv_nz y \/ fv_nl x <> fv_nl y \/ fv_nv x <> fv_nv y.
Definition res_sizes_differ {T D} (r : fres T D) (x : fvar T D) : Prop := fr_nz r <> fv_nz x \/ fr_nl r <> fv_nl x \/ fr_nv r <> fv_nv x.
Lemma var_sizes_same {T D} (x y : fvar T D) : fv_same x y = true -> ~ var_sizes_differ x y.
Proof. unfold fv_same, var_sizes_differ. rewrite !andb_true_iff, !Nat.eqb_eq. lia. Qed.
Lemma res_sizes_same {T D} (r : fres T D) (x : fvar T D) : fr_same r x = true <-> ~ res_sizes_differ r x.
Proof. unfold fr_same, res_sizes_differ. rewrite !andb_true_iff, !Nat.eqb_eq. lia. Qed.

Section Enforced.
  Context {T D : Type} (O : Ops T) (DI : DataI T D).

  (* new objects: zero vectors of the sizes given, alpha = 0.95, no data *)
  Theorem C46_new_objects : forall nz nl nv,
    (forall x, FullVariable_ctor (D:=D) O nz nl nv = Ok x ->
       fv_data x = PNull /\ (Z.of_nat (fv_nz x), Z.of_nat (fv_nl x), Z.of_nat (fv_nv x)) = (nz, nl, nv) /\
       v_z (fv_x x) = repeat (o_zero O) (Z.to_nat nz) /\ v_l (fv_x x) = repeat (o_zero O) (Z.to_nat nl) /\
       v_v (fv_x x) = repeat (o_zero O) (Z.to_nat nv) /\ v_y (fv_x x) = repeat (o_zero O) (Z.to_nat nv)) /\
    (forall r, FullResidual_ctor (D:=D) O nz nl nv = Ok r ->
       fr_data r = PNull /\ (Z.of_nat (fr_nz r), Z.of_nat (fr_nl r), Z.of_nat (fr_nv r)) = (nz, nl, nv) /\
       fr_alpha r = o_dec O 95 (-2) /\
       r_z (fr_r r) = repeat (o_zero O) (Z.to_nat nz) /\ r_l (fr_r r) = repeat (o_zero O) (Z.to_nat nl) /\
       r_v (fr_r r) = repeat (o_zero O) (Z.to_nat nv)).
  Proof.
    intros nz nl nv.
    assert (C : forall n, vconst n (o_zero O) = repeat (o_zero O) n).
    { intro n. unfold vconst, tab. generalize 0%nat. induction n as [|n IH]; intro k; cbn; [reflexivity|]. rewrite IH. reflexivity. }
    unfold FullVariable_ctor, FullResidual_ctor.
    destruct ((nz <=? 0)%Z || (nl <? 0)%Z || (nv <=? 0)%Z) eqn:E; cbn [negb throw_unless rbind]; [split; discriminate|].
    split; intros x [= <-]; cbn [fv_data fv_nz fv_nl fv_nv fv_x v_z v_l v_v v_y fr_data fr_nz fr_nl fr_nv fr_r fr_alpha r_z r_l r_v];
      rewrite !C, !Z2Nat.id by lia; auto 10.
  Qed.

  (* constructors reject exactly the sizes nz <= 0, nl < 0, nv <= 0 *)
  Theorem C46_component_ctors : forall nz nl nv gz gl gv,
    let bad := (nz <= 0 \/ nl < 0 \/ nv <= 0)%Z in
    ((exists x, FullVariable_ctor (D:=D) O nz nl nv = Ok x) /\ ~ bad \/
     FullVariable_ctor (D:=D) O nz nl nv = Throw ECtorSize /\ bad) /\
    ((exists x, FullResidual_ctor (D:=D) O nz nl nv = Ok x) /\ ~ bad \/
     FullResidual_ctor (D:=D) O nz nl nv = Throw ECtorSize /\ bad) /\
    ((exists x, FullFeasibility_ctor (D:=D) nz nl nv gz gl gv = Ok x) /\ ~ bad \/
     FullFeasibility_ctor (D:=D) (T:=T) nz nl nv gz gl gv = Throw ECtorSize /\ bad).
  Proof.
    intros nz nl nv gz gl gv bad.
    unfold FullVariable_ctor, FullResidual_ctor, FullFeasibility_ctor.
    destruct ((nz <=? 0)%Z || (nl <? 0)%Z || (nv <=? 0)%Z) eqn:E; cbn.
    - assert (bad) by (unfold bad; lia). repeat split; right; split; auto.
    - assert (~ bad) by (unfold bad; lia). repeat split; left; split; eauto.
  Qed.

  (* an object that was never linked to problem data throws, it is not undefined *)
  Theorem C46_unlinked_throws :
    (forall x : fvar T D, fv_data x = PNull ->
       fv_margin O DI x = Throw ENoData /\ (forall a, fv_fill O DI a x = Throw ENoData) /\
       (forall a u, fv_axpy O DI a u x = Throw ENoData)) /\
    (forall r : fres T D, fr_data r = PNull ->
       (forall x xb s, fr_inner O DI x xb s r = Throw ENoData) /\
       (forall x, fr_natural O DI x r = Throw ENoData) /\
       (forall x, fr_pnr O DI x r = Throw ENoData)) /\
    (forall f : ffeas T D, ff_data f = PNull -> forall x tol, ff_check O DI x tol f = Throw ENoData).
  Proof.
    split; [|split].
    - intros x H. unfold fv_margin, fv_fill, fv_axpy, fv_margin, fv_set; cbn. rewrite H. auto.
    - intros r H. unfold fr_pnr, fr_inner, fr_natural. rewrite H. auto.
    - intros f H x tol. unfold ff_check. rewrite H. reflexivity.
  Qed.

  (* Copy(x) makes a variable with the vectors of x and linked to the data of x, also when the target
     had never been linked: operations that need the data then work as on x *)
  Theorem C46_copy : forall x this : fvar T D,
    fv_nz this = fv_nz x -> fv_nl this = fv_nl x -> fv_nv this = fv_nv x -> fv_copy x this = x.
  Proof. intros [n p q w d] [n' p' q' w' d'] E1 E2 E3. cbn in *. subst. reflexivity. Qed.
End Enforced.

Section EnforcedSolvers.
  Context {T : Type} (O : Ops T) (LA : LinAlg T).

  (* Initialize throws on mismatched sizes, nonpositive sigma and missing data, and leaves the
     solver as it was; Solve throws on mismatched sizes *)
  Theorem C46_dense_initialize : forall (c : dchol T) x xb s,
    dc_data c = PNull \/
    (exists d, dc_data c = PLive d) /\
      (var_sizes_differ x xb \/ fv_nz xb <> dc_nz c \/ fv_nv xb <> dc_nv c \/ o_leb O s (o_zero O) = true) ->
    exists e, dc_init O LA c x xb s = (c, Throw e).
  Proof.
    intros c x xb s [H|[[d H] K]]; unfold dc_init; rewrite H; cbn [deref_checked rbind]; [eauto|].
    destruct (fv_same x xb) eqn:E1; cbn; [|eauto].
    destruct ((fv_nz xb =? dc_nz c)%nat && (fv_nv xb =? dc_nv c)%nat) eqn:E2; cbn; [|eauto].
    apply andb_prop in E2. rewrite !Nat.eqb_eq in E2.
    destruct (o_leb O s (o_zero O)) eqn:E3; cbn; [eauto|].
    exfalso. apply var_sizes_same in E1. destruct K as [K|[K|[K|K]]]; try congruence; destruct E2; auto.
  Qed.

  Theorem C46_dense_solve_sizes : forall (c : dchol T) r x,
    dc_solve O LA c r None = Throw ENullArg /\
    (res_sizes_differ r x \/ fv_nz x <> dc_nz c \/ fv_nv x <> dc_nv c \/ fv_nl x <> dc_nl c ->
     dc_solve O LA c r (Some x) = Throw ESolverSize).
  Proof.
    intros c r x. split; [reflexivity|]. intro K. unfold dc_solve.
    destruct (fr_same r x) eqn:E1; cbn; [|reflexivity].
    destruct ((fv_nz x =? dc_nz c)%nat && (fv_nv x =? dc_nv c)%nat && (fv_nl x =? dc_nl c)%nat) eqn:E2;
      cbn; [|reflexivity].
    apply andb_prop in E2. destruct E2 as [E2 E3]. apply andb_prop in E2. rewrite !Nat.eqb_eq in *.
    exfalso. apply res_sizes_same in E1. destruct K as [K|[K|[K|K]]]; try congruence; destruct E2; auto.
  Qed.

  Theorem C46_riccati_initialize : forall (c : ricc T) x xb s,
    var_sizes_differ x xb \/ o_leb O s (o_zero O) = true \/ rc_data c = PNull ->
    exists e, rc_init O LA c x xb s = (c, Throw e).
  Proof.
    intros c x xb s K. unfold rc_init.
    destruct (fv_same x xb) eqn:E1; cbn; [|eauto].
    destruct (o_leb O s (o_zero O)) eqn:E3; cbn; [eauto|].
    apply var_sizes_same in E1. destruct K as [K|[K|K]]; [contradiction|congruence|]. rewrite K. cbn. eauto.
  Qed.

  Theorem C46_riccati_solve : forall (c : ricc T) r x,
    (res_sizes_differ r x -> rc_solve O LA c r (Some x) = Throw ESolverSize) /\
    (~ res_sizes_differ r x -> rc_data c = PNull -> rc_solve O LA c r (Some x) = Throw ENoData).
  Proof.
    intros c r x. unfold rc_solve. split; intro H.
    - destruct (fr_same r x) eqn:E; [apply res_sizes_same in E; contradiction|reflexivity].
    - apply res_sizes_same in H. rewrite H. cbn. intro K. rewrite K. reflexivity.
  Qed.

  (* every MPC product and vector update checks the lengths of its arguments *)
  Theorem C46_mpc_products_check_sizes : forall (d : mpc_data T) x a b y,
    (length x <> md_nz d \/ length y <> md_nz d -> mpc_gemvH O d x a b y = Throw EGemvSize) /\
    (length x <> md_nz d \/ length y <> md_nv d -> mpc_gemvA O d x a b y = Throw EGemvSize) /\
    (length x <> md_nz d \/ length y <> md_nl d -> mpc_gemvG O d x a b y = Throw EGemvSize) /\
    (length x <> md_nv d \/ length y <> md_nz d -> mpc_gemvAT O d x a b y = Throw EGemvSize) /\
    (length x <> md_nl d \/ length y <> md_nz d -> mpc_gemvGT O d x a b y = Throw EGemvSize) /\
    (length y <> md_nz d -> mpc_axpyf O d a y = Throw EGemvSize) /\
    (length y <> md_nl d -> mpc_axpyh O d a y = Throw EGemvSize) /\
    (length y <> md_nv d -> mpc_axpyb O d a y = Throw EGemvSize).
  Proof.
    intros d x a b y.
    assert (C : forall n m, length x <> n \/ length y <> m -> size_chk x y n m = Throw EGemvSize).
    { intros n m H. unfold size_chk. destruct ((length x =? n)%nat && (length y =? m)%nat) eqn:E; [|reflexivity].
      apply andb_prop in E. rewrite !Nat.eqb_eq in E. lia. }
    assert (C1 : forall m, length y <> m -> size_chk1 y m = Throw EGemvSize).
    { intros m H. unfold size_chk1. apply Nat.eqb_neq in H. rewrite H. reflexivity. }
    unfold mpc_gemvH, mpc_gemvA, mpc_gemvG, mpc_gemvAT, mpc_gemvGT, mpc_axpyf, mpc_axpyh, mpc_axpyb.
    repeat split; intro H; (rewrite (C _ _ H) || rewrite (C1 _ H)); reflexivity.
  Qed.
End EnforcedSolvers.

(* ---------- not enforced ---------- *)
Local Open Scope Z_scope.
Definition one_by_one : dense_data F64 :=
  mkDD 1 0 1 (Fint 0) (fm_ 1 1 [1]) (fm_ 0 1 []) (fm_ 1 1 [1]) (fv_ [0]) [] (fv_ [0]).

(* InnerResidual with nonpositive sigma (full_residual.h:88 documents an exception) *)
Theorem C46_inner_residual_sigma_refuted :
  ~ (forall (x xb : fvar F64 (dense_data F64)) s r, o_leb Fops s (Fint 0) = true ->
     exists e, fr_inner Fops (denseDI Fops) x xb s r = Throw e).
Proof.
  intro H. pose (x := mkFvar 1 0 1 (fx_ [0] [] [0] [0]) (PLive one_by_one)).
  pose (r := mkFres 1 0 1 (mkRsd (fv_ [0]) [] (fv_ [0]) (Fint 0) (Fint 0) (Fint 0)) (Fint 1) (PLive one_by_one)).
  destruct (H x x (Fint (-1)) r eq_refl) as [e E]. vm_compute in E. discriminate.
Qed.

(* InnerResidual and CheckFeasibility on variables of the wrong size: undefined, not thrown *)
Theorem C46_residual_sizes_refuted :
  ~ (forall (x xb : fvar F64 (dense_data F64)) s r, res_sizes_differ r x ->
     exists e, fr_inner Fops (denseDI Fops) x xb s r = Throw e).
Proof.
  intro H. pose (x := mkFvar 2 0 1 (fx_ [0;0] [] [0] [0]) (PLive one_by_one)).
  pose (r := mkFres 1 0 1 (mkRsd (fv_ [0]) [] (fv_ [0]) (Fint 0) (Fint 0) (Fint 0)) (Fint 1) (PLive one_by_one)).
  destruct (H x x (Fint 1) r) as [e E]; [left; discriminate|]. vm_compute in E. discriminate.
Qed.
Theorem C46_feasibility_sizes_refuted :
  ~ (forall (x : fvar F64 (dense_data F64)) tol f, fv_nz x <> ff_nz f ->
     exists e, ff_check Fops (denseDI Fops) x tol f = Throw e).
Proof.
  intro H. pose (x := mkFvar 2 0 1 (fx_ [0;0] [] [0] [0]) (PLive one_by_one)).
  pose (f := mkFfeas 1 0 1 (fv_ [0]) [] (fv_ [0]) (PLive one_by_one)).
  destruct (H x (Fint 1) f) as [e E]; [discriminate|]. vm_compute in E. discriminate.
Qed.
(* DenseCholeskySolver::Solve before LinkData dereferences null *)
Theorem C46_dense_solve_unlinked_refuted :
  ~ (forall (c : dchol F64) r x, dc_data c = PNull -> exists e, dc_solve Fops LAF c r (Some x) = Throw e).
Proof.
  intro H. pose (x := mkFvar 1 0 1 (fx_ [0] [] [0] [0]) (PLive one_by_one)).
  pose (r := mkFres 1 0 1 (mkRsd (fv_ [0]) [] (fv_ [0]) (Fint 0) (Fint 0) (Fint 0)) (Fint 1) (PLive one_by_one)).
  destruct (H (mkDchol 1 0 1 (Fint 1) PNull (fm_ 1 1 [1]) (fv_ [0]) (fv_ [1])) r x eq_refl) as [e E].
  vm_compute in E. discriminate.
Qed.
(* so do RiccatiLinearSolver::Solve on a null output and DenseData on null inputs
   (dense_data.h:41 documents an exception) *)
Theorem C46_null_arguments_refuted :
  ~ (forall (c : ricc F64) r, exists e, rc_solve Fops LAF c r None = Throw e) /\
  ~ (forall H f G h A, exists e, DenseData_ctor Fops H f G h A None = Throw e).
Proof.
  split; intro H.
  - destruct (RiccatiLinearSolver_ctor Fops 1 1 1 1 (fun _ _ _ => Fint 0)) as [c|e|u] eqn:E; [|discriminate..].
    destruct (H c (mkFres 0 0 0 (mkRsd [] [] [] (Fint 0) (Fint 0) (Fint 0)) (Fint 0) PNull)) as [e K]. discriminate.
  - destruct (H (Some (fm_ 1 1 [1])) (Some (fv_ [0])) (Some (fm_ 0 1 [])) (Some []) (Some (fm_ 1 1 [1]))) as [e K].
    vm_compute in K. discriminate.
Qed.
