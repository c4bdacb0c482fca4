(* Concrete calls with an output stream that throws (C66). *)
From Verif Require Import Examples Refuted PropsStream.
From Coq Require Import Floats.SpecFloat.
Local Open Scope Z_scope.

(* a stream that takes n messages and throws at the next *)
Definition first_messages (n : nat) (l : list (event F64)) : bool := (length l <=? n)%nat.

(* new solver, UpdateOptions(o), Solve with the stream *)
Definition on_stream (nz nl nv : Z) (o : params F64) (acc : list (event F64) -> bool) qp x
    (P : solve_result F64 -> solve_result F64 -> bool) : bool :=
  match FBstabDense_new Fops g0 nz nl nv with
  | Ok s0 => let s := fst (FBstabDense_UpdateOptions Fops s0 o) in
             P (snd (FBstabDense_Solve Fops LAF s qp Owned x (Fint 0)))
               (snd (FBstabDense_SolveOn Fops LAF acc s qp Owned x (Fint 0)))
  | _ => false
  end.
Lemma on_stream_ok nz nl nv o acc qp x P : on_stream nz nl nv o acc qp x P = true ->
  exists s, dense_reach Fops LAF nz nl nv s /\
            P (snd (FBstabDense_Solve Fops LAF s qp Owned x (Fint 0)))
              (snd (FBstabDense_SolveOn Fops LAF acc s qp Owned x (Fint 0))) = true.
Proof.
  unfold on_stream. destruct (FBstabDense_new Fops g0 nz nl nv) as [s0|e|u] eqn:E; try discriminate.
  intro H. eexists. split; [|exact H]. apply dr_update. eapply dr_new. exact E.
Qed.

Definition thrown {A} (r : res A) : bool := match r with Throw EStream => true | _ => false end.
Lemma thrown_ok {A} (r : res A) : thrown r = true -> r = Throw EStream.
Proof. destruct r as [a|e|u]; try discriminate. destruct e; try discriminate. reflexivity. Qed.

(* ITER: header, three lines and the summary; the stream throws at the third message *)
Example C66_dense_example : exists s,
  dense_reach Fops LAF 2 0 2 s /\
  let r := snd (FBstabDense_Solve Fops LAF s qp_ok Owned (fx_ [0;0] [] [0;0] []) (Fint 0)) in
  let r' := snd (FBstabDense_SolveOn Fops LAF (first_messages 2) s qp_ok Owned (fx_ [0;0] [] [0;0] []) (Fint 0)) in
  summary r = Ok (SUCCESS, 5, 2) /\ length (sr_log r) = 5%nat /\
  sr_out r' = Throw EStream /\ length (sr_log r') = 2%nat.
Proof.
  destruct (on_stream_ok 2 0 2 (with_display dflt ITER) (first_messages 2) qp_ok (fx_ [0;0] [] [0;0] [])
    (fun r r' => okb (sr_out r) (fun out => flag_is SUCCESS out && (so_newton out =? 5) && (so_prox out =? 2))
       && (length (sr_log r) =? 5)%nat && thrown (sr_out r') && (length (sr_log r') =? 2)%nat)) as (s & R & K);
    [vm_compute; reflexivity|].
  rewrite !andb_true_iff, !Nat.eqb_eq in K. destruct K as (((K1 & K2) & K3) & K4).
  exists s. split; [exact R|]. cbv zeta. split; [|split; [exact K2|split; [apply thrown_ok; exact K3|exact K4]]].
  apply okb_true in K1. destruct K1 as (b & E & F). rewrite !andb_true_iff, !Z.eqb_eq in F.
  destruct F as ((F1 & F2) & F3). apply flag_is_ok in F1. unfold summary. rewrite E, F1, F2, F3. reflexivity.
Qed.

(* the variables can change although Solve threw: two Newton steps allowed, and the stream
   refuses the closing summary *)
Theorem C66_unchanged_refuted :
  ~ (forall acc nz nl nv s qp k x el e, dense_reach Fops LAF nz nl nv s -> y_fits k x (Z.to_nat nv) ->
     sr_out (snd (FBstabDense_SolveOn Fops LAF acc s qp k x el)) = Throw e ->
     sr_x (snd (FBstabDense_SolveOn Fops LAF acc s qp k x el)) = x).
Proof.
  intro H.
  destruct (on_stream_ok 2 0 2 (with_display (with_limits 2 30 50 20 dflt) FINAL) (first_messages 0) qp_ok
    (fx_ [0;0] [] [0;0] [])
    (fun _ r' => thrown (sr_out r') && negb (o_eqb Fops (nth 0 (v_z (sr_x r')) (Fint 0)) (Fint 0)))) as (s & R & K);
    [vm_compute; reflexivity|].
  apply andb_true_iff in K. destruct K as [K1 K2]. apply thrown_ok in K1.
  rewrite (H _ _ _ _ _ _ Owned _ _ _ R I K1) in K2. vm_compute in K2. discriminate K2.
Qed.

Example C66_mpc_example : exists s,
  mpc_reach Fops LAF 2 1 1 1 s /\
  sr_out (snd (FBstabMpc_SolveOn Fops LAF (first_messages 3) s ocp Owned
    (fx_ [0;0;0;0;0;0] [0;0;0] [0;0;0] [0;0;0]) (Fint 0))) = Throw EStream.
Proof.
  assert (K : match FBstabMpc_new Fops g0 2 1 1 1 with
    | Ok s0 => let s := fst (FBstabMpc_UpdateOptions Fops s0 (with_display dflt ITER_DETAILED)) in
      thrown (sr_out (snd (FBstabMpc_SolveOn Fops LAF (first_messages 3) s ocp Owned
        (fx_ [0;0;0;0;0;0] [0;0;0] [0;0;0] [0;0;0]) (Fint 0))))
    | _ => false end = true) by (vm_compute; reflexivity).
  destruct (FBstabMpc_new Fops g0 2 1 1 1) as [s0|e|u] eqn:E; [|discriminate K|discriminate K].
  exists (fst (FBstabMpc_UpdateOptions Fops s0 (with_display dflt ITER_DETAILED))).
  split; [apply mr_update; eapply mr_new; exact E|]. apply thrown_ok. exact K.
Qed.
