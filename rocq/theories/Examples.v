(* Concrete runs of the model on IEEE binary64, used (a) to show that the hypotheses of the
   property theorems are met by non-trivial calls, (b) as counterexamples to claims the code
   does not satisfy.  The factorisations are the textbook ones of LinAlgInst. *)
From Verif Require Export Api LinAlgInst.
From Coq Require Import Floats.SpecFloat.
Local Open Scope Z_scope.

Definition LAF : LinAlg F64 := inst_la Fops.
Definition fv_ (l : list Z) : vec F64 := map Fint l.
(* a matrix given by rows *)
Definition fm_ (r c : nat) (l : list Z) : mat F64 :=
  mtab r c (fun i j => Fint (nth (i * c + j)%nat l 0)).
Definition g0 : garbage F64 :=
  mkGarbage (fun _ => Fint 0) (fun _ => Fint 0) (fun _ => Fint 0) (fun _ _ _ => Fint 0).
Definition fx_ (z l v y : list Z) : var F64 := mkVar (fv_ z) (fv_ l) (fv_ v) (fv_ y).

(* the observable summary of a call *)
Definition summary (r : solve_result F64) : res (exit_flag * Z * Z) :=
  match sr_out r with
  | Ok s => Ok (so_eflag s, so_newton s, so_prox s)
  | Throw e => Throw e | UB u => UB u
  end.


Section Calls.
Context {T : Type} (O : Ops T) (LA : LinAlg T).
(* construct a solver, UpdateOptions(o), Solve: the data object, the options in force, the result *)
Definition dcall (g : garbage T) (nz nl nv : Z) (o : params T) (qp : dense_qp T) (k : vkind)
    (x : var T) (el : T) : option (dense_data T * params T * solve_result T) :=
  match FBstabDense_new O g nz nl nv with
  | Ok s =>
      let s1 := fst (FBstabDense_UpdateOptions O s o) in
      match DenseData_ctor O (Some (q_H qp)) (Some (q_f qp)) (Some (q_G qp)) (Some (q_h qp))
                     (Some (q_A qp)) (Some (q_b qp)) with
      | Ok d => match dense_validate s1 d x with
                | Ok _ => Some (d, ds_options s1, snd (FBstabDense_Solve O LA s1 qp k x el))
                | _ => None
                end
      | _ => None
      end
  | _ => None
  end.

Definition mcall (g : garbage T) (N nx nu nc : Z) (o : params T) (qp : mpc_ref T) (k : vkind)
    (x : var T) (el : T) : option (mpc_data T * params T * solve_result T) :=
  match FBstabMpc_new O g N nx nu nc with
  | Ok s =>
      let s1 := fst (FBstabMpc_UpdateOptions O s o) in
      match MpcData_ctor O qp with
      | Ok d => match mpc_validate_inputs s1 d x with
                | Ok _ => Some (d, mps_options s1, snd (FBstabMpc_Solve O LA s1 qp k x el))
                | _ => None
                end
      | _ => None
      end
  | _ => None
  end.


Lemma dcall_ok g nz nl nv o qp k x el (P : dense_data T -> params T -> solve_result T -> Prop) :
  y_fits k x (Z.to_nat nv) ->
  match dcall g nz nl nv o qp k x el with Some (d, o', r) => P d o' r | None => False end ->
  exists d o' r, solve_call O LA (dense_data T) (denseDI O) d (Z.to_nat nz) (Z.to_nat nl) (Z.to_nat nv) o' x el r /\ P d o' r.
Proof.
  intros Hy. unfold dcall.
  destruct (FBstabDense_new O g nz nl nv) as [s|e|u] eqn:En; try contradiction.
  destruct (DenseData_ctor _ _ _ _ _ _ _) as [d|e|u] eqn:Ed; try contradiction.
  destruct (dense_validate _ _ _) as [[]|e|u] eqn:Ev; try contradiction. intro H.
  do 3 eexists. split; [|exact H]. eapply sc_dense; eauto. apply dr_update. eapply dr_new. exact En.
Qed.

Lemma mcall_ok g N nx nu nc o qp k x el (P : mpc_data T -> params T -> solve_result T -> Prop) :
  seqs_valid qp -> single_columns qp ->
  match mcall g N nx nu nc o qp k x el with Some (d, o', r) => P d o' r | None => False end ->
  exists d a b c o' r, solve_call O LA (mpc_data T) (mpcDI O) d a b c o' x el r /\ P d o' r.
Proof.
  intros Hs Hc. unfold mcall.
  destruct (FBstabMpc_new O g N nx nu nc) as [s|e|u] eqn:En; try contradiction.
  destruct (MpcData_ctor _ _) as [d|e|u] eqn:Ed; try contradiction.
  destruct (mpc_validate_inputs _ _ _) as [[]|e|u] eqn:Ev; try contradiction. intro H.
  do 6 eexists. split; [|exact H]. eapply sc_mpc; eauto. apply mr_update. eapply mr_new. exact En.
Qed.

End Calls.

(* ---------- problems ---------- *)
(* FeasibleQP, InfeasibleQP, UnboundedQP of fbstab_dense_unit_tests.cc; qp_eq has an equality *)
Definition qp_ok : dense_qp F64 :=
  mkDQP (fm_ 2 2 [3;1;1;1]) (fv_ [10;5]) (fm_ 0 2 []) [] (fm_ 2 2 [-1;0;0;1]) (fv_ [0;0]).
Definition qp_eq : dense_qp F64 :=
  mkDQP (fm_ 2 2 [4;1;1;2]) (fv_ [1;1]) (fm_ 1 2 [1;1]) (fv_ [1]) (fm_ 2 2 [-1;0;0;-1]) (fv_ [0;0]).
Definition qp_infeasible : dense_qp F64 :=
  mkDQP (fm_ 2 2 [1;0;0;0]) (fv_ [1;-1]) (fm_ 0 2 []) []
        (fm_ 5 2 [1;1;1;0;0;1;-1;0;0;-1]) (fv_ [0;3;3;-1;-1]).
Definition qp_unbounded : dense_qp F64 :=
  mkDQP (fm_ 2 2 [1;0;0;0]) (fv_ [1;-1]) (fm_ 0 2 []) []
        (fm_ 4 2 [0;0;1;0;-1;0;0;-1]) (fv_ [0;3;-1;-1]).

(* minimise sum of x^2/2+u^2/2+u over x(i+1)=x(i)+u(i), x(0)=1, u(i)<=1/... : N=2, nx=nu=nc=1 *)
Definition fseq (n r c : Z) (l : list Z) : mapseq F64 := mkMap n r c (n * r * c) (Some (fv_ l)).
Definition ocp : mpc_ref F64 :=
  mkMR (fseq 3 1 1 [1;1;1]) (fseq 3 1 1 [1;1;1]) (fseq 3 1 1 [0;0;0]) (fseq 3 1 1 [0;0;0])
       (fseq 3 1 1 [1;1;1]) (fseq 2 1 1 [1;1]) (fseq 2 1 1 [1;1]) (fseq 2 1 1 [0;0])
       (fseq 3 1 1 [0;0;0]) (fseq 3 1 1 [-1;-1;-1]) (fseq 3 1 1 [0;0;0]) (fv_ [2]).

Lemma ocp_valid : seqs_valid ocp /\ single_columns ocp.
Proof.
  split; [|repeat split].
  assert (H : forall n l, 0 <= n -> in_int (n * 1 * 1) = true -> (n * 1 * 1 <= Z.of_nat (length l)) ->
              seq_valid (fseq n 1 1 l)).
  { intros n l H1 H2 H3. unfold seq_valid, fseq; cbn [mp_N mp_nr mp_nc mp_mem].
    repeat split; try lia; try exact H2. intros _. eexists. split; [reflexivity|]. unfold fv_. rewrite map_length. exact H3. }
  constructor; apply H; cbn; lia || reflexivity.
Qed.

Definition dflt : params F64 := DefaultParameters Fops.
Definition with_limits (nw px inn ls : Z) (o : params F64) : params F64 :=
  mkParams (p_sigma0 o) (p_sigma_max o) (p_sigma_min o) (p_alpha o) (p_beta o) (p_eta o) (p_delta o)
    (p_gamma o) (p_abs_tol o) (p_rel_tol o) (p_stall_tol o) (p_infeas_tol o) (p_inner_tol_max o)
    (p_inner_tol_min o) nw px inn ls (p_check_feas o) (p_nonmonotone o) (p_display o).

(* A call of the dense solver on doubles with the given summary exists. *)
Definition dense_example nz nl nv x s : Prop :=
  exists d o r, solve_call Fops LAF (dense_data F64) (denseDI Fops) d (Z.to_nat nz) (Z.to_nat nl)
    (Z.to_nat nv) o x (Fint 0) r /\ summary r = s.

Ltac dexample o qp := eapply (dcall_ok Fops LAF g0 _ _ _ o qp Owned _ (Fint 0) (fun _ _ r => summary r = _));
  [exact I | vm_compute; reflexivity].

Lemma ex_success : dense_example 2 0 2 (fx_ [0;0] [] [0;0] []) (Ok (SUCCESS, 5, 2)).
Proof. dexample dflt qp_ok. Qed.
Lemma ex_success_eq : dense_example 2 1 2 (fx_ [0;0] [0] [0;0] []) (Ok (SUCCESS, 5, 2)).
Proof. dexample dflt qp_eq. Qed.
Lemma ex_primal : dense_example 2 0 5 (fx_ [0;0] [] [0;0;0;0;0] []) (Ok (PRIMAL_INFEASIBLE, 8, 1)).
Proof. dexample dflt qp_infeasible. Qed.
Lemma ex_dual : dense_example 2 0 4 (fx_ [0;0] [] [0;0;0;0] []) (Ok (DUAL_INFEASIBLE, 7, 1)).
Proof. dexample dflt qp_unbounded. Qed.
Lemma ex_newton_limit : dense_example 2 0 2 (fx_ [0;0] [] [0;0] []) (Ok (MAXITERATIONS, 2, 0)).
Proof. dexample (with_limits 2 30 50 20 dflt) qp_ok. Qed.
Lemma ex_prox_limit : dense_example 2 0 2 (fx_ [0;0] [] [0;0] []) (Ok (MAXITERATIONS, 4, 1)).
Proof. dexample (with_limits 200 1 50 20 dflt) qp_ok. Qed.

(* and one of the MPC solver *)
Lemma ex_mpc : exists d a b c o r,
  solve_call Fops LAF (mpc_data F64) (mpcDI Fops) d a b c o
    (fx_ [0;0;0;0;0;0] [0;0;0] [0;0;0] [0;0;0]) (Fint 0) r /\ summary r = Ok (SUCCESS, 5, 2).
Proof.
  eapply (mcall_ok Fops LAF g0 2 1 1 1 dflt ocp Owned _ (Fint 0) (fun _ _ r => summary r = _));
    [apply ocp_valid|apply ocp_valid|vm_compute; reflexivity].
Qed.
