(* C73 applies to two FBstabDense calls: a problem and the same problem with its variables swapped and one of them
   negated, its equality negated and its inequalities swapped.  Both calls take Newton and proximal steps. *)
From Verif Require Import PropsRelabel Witness.
Local Open Scope R_scope.

(* minimise x^2/2 - x - y, x = y, x + y <= 1, -x <= 3 *)
Definition qp4 : dense_qp R :=
  mkDQP (mkMat 2 2 [1;0;0;0]) [-1;-1] (mkMat 1 2 [1;-1]) [0] (mkMat 2 2 [1;-1;1;0]) [1;3].
Definition P4 : QP := qp_of (q_H qp4) (q_f qp4) (q_G qp4) (q_h qp4) (q_A qp4) (q_b qp4).
Definition x4 : var R := mkVar [1;2] [3] [0;4] [0;0].
(* variables (-y, x); equality -x + y = 0; inequalities swapped *)
Definition qp5 : dense_qp R :=
  mkDQP (mkMat 2 2 [0;0;0;1]) [1;-1] (mkMat 1 2 [-1;-1]) [0] (mkMat 2 2 [0;-1;-1;1]) [3;1].
Definition P5 : QP := qp_of (q_H qp5) (q_f qp5) (q_G qp5) (q_h qp5) (q_A qp5) (q_b qp5).
Definition x5 : var R := mkVar [-2;1] [-3] [4;0] [0;0].
Definition swap2 (i : nat) : nat := (1 - i)%nat.
Definition keep (i : nat) : nat := i.
Definition sz4 (i : nat) : R := match i with O => -1 | _ => 1 end.
Definition sl4 (i : nat) : R := -1.

Lemma P4_relabels : relabels P4 P5 swap2 keep swap2 sz4 sl4.
Proof.
  assert (SW : reorders 2 swap2) by (split; unfold swap2; intros; lia).
  constructor; try reflexivity.
  - exact SW.
  - split; auto.
  - exact SW.
  - intros [|[|i]] Hi; cbn; auto.
  - intros i Hi. right. reflexivity.
  - intros [|[|i]] [|[|j]] Hi Hj; cbn in Hi, Hj; try lia; cbn; ring.
  - intros [|[|i]] Hi; cbn in Hi; try lia; cbn; ring.
  - intros [|[|i]] [|[|j]] Hi Hj; cbn in Hi, Hj; try lia; cbn; unfold sl4; ring.
  - intros [|[|i]] Hi; cbn in Hi; try lia; cbn; unfold sl4; ring.
  - intros [|[|i]] [|[|j]] Hi Hj; cbn in Hi, Hj; try lia; cbn; ring.
  - intros [|[|i]] Hi; cbn in Hi; try lia; cbn; ring.
Qed.
Lemma P4_convex : convex P4.
Proof.
  split; [|intros z0; unfold quad; cbn; nra]. cbn. intros [|[|i]] [|[|j]] Hi Hj; try lia; reflexivity.
Qed.
Lemma x4_moved : same_point P4 swap2 keep swap2 sz4 sl4 x4 x5.
Proof.
  split; [|split]; (split; [reflexivity|split; [reflexivity|]]); intros [|[|i]] Hi; cbn in Hi; try lia; cbn; unfold sl4, same_sign; ring.
Qed.
Lemma fresh_call LA qp x P : P = qp_of (q_H qp) (q_f qp) (q_G qp) (q_h qp) (q_A qp) (q_b qp) ->
  (exists d, DenseData_ctor Rops (Some (q_H qp)) (Some (q_f qp)) (Some (q_G qp)) (Some (q_h qp)) (Some (q_A qp)) (Some (q_b qp)) = Ok d /\
    forall s, FBstabDense_new Rops g1 2 1 2 = Ok s -> dense_validate s d x = Ok tt) -> length (v_y x) = 2%nat ->
  exists s, dense_reach Rops LA 2 1 2 s /\ solves LA P dflt_R x 0 (snd (FBstabDense_Solve Rops LA s qp Mapped x 0)).
Proof.
  intros -> (d & Ed & Hv) Hy. destruct (FBstabDense_new Rops g1 2 1 2) as [s|e|u] eqn:E; [|discriminate E|discriminate E].
  destruct (dense_new_inv Rops g1 2 1 2 s E) as [_ EO]. exists s. split; [eapply dr_new; exact E|].
  unfold dflt_R. rewrite <- EO. eapply sv_dense; [eapply dr_new; exact E|exact Ed|apply Hv; reflexivity|exact Hy].
Qed.
Theorem C73_example : exists s s' r r',
  let LA := inst_la Rops in
  r = snd (FBstabDense_Solve Rops LA s qp4 Mapped x4 0) /\ r' = snd (FBstabDense_Solve Rops LA s' qp5 Mapped x5 0) /\
  solves LA P4 dflt_R x4 0 r /\ solves LA P5 dflt_R x5 0 r' /\ long_run r /\ long_run r' /\
  convex P4 /\ relabels P4 P5 swap2 keep swap2 sz4 sl4 /\ same_point P4 swap2 keep swap2 sz4 sl4 x4 x5 /\
  sr_out r = sr_out r' /\ same_point P4 swap2 keep swap2 sz4 sl4 (sr_x r) (sr_x r').
Proof.
  destruct (fresh_call (inst_la Rops) qp4 x4 P4 eq_refl) as (s & _ & C1); [eexists; split; [reflexivity|]; intros s E; injection E as <-; reflexivity|reflexivity|].
  destruct (fresh_call (inst_la Rops) qp5 x5 P5 eq_refl) as (s' & _ & C2); [eexists; split; [reflexivity|]; intros s' E; injection E as <-; reflexivity|reflexivity|].
  exists s, s'. do 2 eexists. cbv zeta. split; [reflexivity|]. split; [reflexivity|]. split; [exact C1|]. split; [exact C2|].
  assert (R1 : long_run (snd (FBstabDense_Solve Rops (inst_la Rops) s qp4 Mapped x4 0))).
  { eapply runs_long; [exact inst_laws|exact C1|exact P4_convex|cbn; lia| |]; unfold lagr, times, ttimes; cbn; lra. }
  assert (R2 : long_run (snd (FBstabDense_Solve Rops (inst_la Rops) s' qp5 Mapped x5 0))).
  { eapply runs_long; [exact inst_laws|exact C2|exact (relabel_convex P4_relabels P4_convex)|cbn; lia| |]; unfold lagr, times, ttimes; cbn; lra. }
  split; [exact R1|]. split; [exact R2|]. split; [exact P4_convex|]. split; [exact P4_relabels|]. split; [exact x4_moved|].
  destruct (C73_relabelled _ _ _ _ _ _ _ _ _ dflt_R (p_display dflt_R) _ _ _ _ _ inst_laws inst_laws P4_convex P4_relabels C1 C2 x4_moved) as (E & H).
  split; [exact E|]. destruct R1 as ((out & EO) & _). exact (proj1 (H out EO)).
Qed.
Print Assumptions C73_example.
