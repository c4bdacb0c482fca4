(* A solver with uninitialised memory full of 7s solves an unbounded problem and is then given it again:
   the hypotheses of the calm-history theorems of PropsWork.v are met. *)
From Verif Require Import PropsWork WitnessInfeas WitnessFloat WitnessGap BinOps Examples.
From Flocq Require Import Core.Core IEEE754.BinarySingleNaN.
Local Open Scope R_scope.

(* minimise -z subject to -z <= 0, -z <= 1 *)
Definition qp_ray_B : dense_qp B64 :=
  mkDQP (bm_ 1 1 [0])%Z (bv_ [-1])%Z (bm_ 0 1 []) (bv_ []) (bm_ 2 1 [-1;-1])%Z (bv_ [0;1])%Z.
Definition b7 : garbage B64 := mkGarbage (fun _ => Bint 7) (fun _ => Bint 7) (fun _ => Bint 7) (fun _ _ _ => Bint 7).
Notation finite := (fun a : B64 => is_finite a = true).

Definition step_small (g : ghost B64) : bool :=
  match g with GProx dx => forallb small_num (v_l dx) && forallb small_num (v_v dx) | _ => true end.
Definition steps_small (r : solve_result B64) : bool := forallb step_small (sr_trace r).
Definition checks (r : solve_result B64) : nat := count (fun g => match g with GProx _ => true | _ => false end) (sr_trace r).
Lemma small_steps qp r : small_qp (exact_qp Bops B2R qp) -> steps_small r = true -> good_steps (O:=Bops) (fin:=finite) (val:=B2R) (2 ^ 1022) qp r.
Proof.
  intros S H dx I. pose proof (proj1 (forallb_forall _ _) H _ I) as X. cbn [step_small] in X. apply andb_true_iff in X. destruct X as (X1 & X2).
  split; [intros i _; apply (small_nums _ i X1)|]. split; [intros i _; apply (small_nums _ i X2)|].
  apply (moderate_weaken _ _ 0). apply small_multipliers; [exact S|lra|intro i; apply (small_nums _ i X1)|intro i; apply (small_nums _ i X2)].
Qed.
Lemma ray_small : small_qp (exact_qp Bops B2R qp_ray_B).
Proof.
  split; [cbn; lia|]. split; [cbn; lia|]. split; [cbn; lia|]. split.
  - intros i j. repeat split; apply small_nums; vm_compute; reflexivity.
  - intros i. repeat split; apply small_nums; vm_compute; reflexivity.
Qed.
Lemma data_finite qp : forallb small_num (me (q_H qp)) && forallb small_num (q_f qp) && forallb small_num (me (q_G qp)) && forallb small_num (q_h qp) &&
  forallb small_num (me (q_A qp)) && forallb small_num (q_b qp) = true -> dense_finite finite qp.
Proof. rewrite !andb_true_iff. intros (((((H1 & H2) & H3) & H4) & H5) & H6). repeat split; apply finite_all; assumption. Qed.

Definition x_start : var B64 := (bx_ [0] [] [0;0] [])%Z.
Definition first_call (s : dense_solver B64) := FBstabDense_Solve Bops LAB s qp_ray_B Owned x_start (Bint 0).
Definition second_call (s : dense_solver B64) := FBstabDense_Solve Bops LAB (fst (first_call s)) qp_ray_B Owned x_start (Bint 0).
Definition story : bool :=
  match FBstabDense_new Bops b7 1 0 2, DenseData_ctor Bops (Some (q_H qp_ray_B)) (Some (q_f qp_ray_B)) (Some (q_G qp_ray_B)) (Some (q_h qp_ray_B)) (Some (q_A qp_ray_B)) (Some (q_b qp_ray_B)) with
  | Ok s, Ok d => 
      forallb small_num (work_vectors s) && steps_small (snd (first_call s)) && (1 <=? checks (snd (first_call s)))%nat &&
      match dense_validate (fst (first_call s)) d x_start with Ok _ => true | _ => false end &&
      steps_small (snd (second_call s)) && flagged DUAL_INFEASIBLE (ds_options (fst (first_call s))) (snd (second_call s)) &&
      Beqb (nth 0 (work_vectors s) (Bint 0)) (Bint 7) && negb (Beqb (nth 0 (work_vectors (fst (first_call s))) (Bint 0)) (Bint 7))
  | _, _ => false
  end.
Lemma story_ok : story = true.
Proof. vm_compute. reflexivity. Qed.

Example C14_calm_example : exists s1 s2, calm LAB 1 0 2 s1 /\ calm LAB 1 0 2 s2 /\ (1 + 0 + 2 + 4 <= 2 ^ 47)%Z /\
  same_but_display (ds_options s1) (ds_options s2) /\ work_vectors s1 <> work_vectors s2 /\
  exists d out, let r := snd (FBstabDense_Solve Bops LAB s2 qp_ray_B Owned x_start (Bint 0)) in
  dense_finite finite qp_ray_B /\
  DenseData_ctor Bops (Some (q_H qp_ray_B)) (Some (q_f qp_ray_B)) (Some (q_G qp_ray_B)) (Some (q_h qp_ray_B)) (Some (q_A qp_ray_B)) (Some (q_b qp_ray_B)) = Ok d /\
  dense_validate s2 d x_start = Ok tt /\ y_fits Owned x_start (Z.to_nat 2) /\
  good_steps (O:=Bops) (fin:=finite) (val:=B2R) (2 ^ 1022) qp_ray_B r /\ sr_out r = Ok out /\ so_eflag out = DUAL_INFEASIBLE /\
  is_finite (p_infeas_tol (ds_options s2)) = true /\ (forall i, is_finite (vget Bops (v_z (sr_x r)) i) = true) /\
  moderate_direction (exact_qp Bops B2R qp_ray_B) (2 ^ 1022) (B2R (p_infeas_tol (ds_options s2))) (fun i => B2R (vget Bops (v_z (sr_x r)) i)).
Proof.
  pose proof story_ok as ST. unfold story in ST. destruct (FBstabDense_new Bops b7 1 0 2) as [s| |] eqn:EN; try discriminate.
  destruct (DenseData_ctor _ _ _ _ _ _ _) as [d| |] eqn:EC; try discriminate.
  rewrite !andb_true_iff in ST. destruct ST as (((((((W1 & S1) & _) & V) & S2) & FL) & N7) & NE).
  destruct (dense_validate (fst (first_call s)) d x_start) as [[]| |] eqn:EV; try discriminate.
  exists s, (fst (first_call s)).
  assert (C1 : calm LAB 1 0 2 s) by (eapply calm_new; [exact EN|apply finite_all; exact W1]).
  assert (C2 : calm LAB 1 0 2 (fst (first_call s))).
  { apply calm_solve; [exact C1|exact I|]. intros _. split; [apply data_finite; vm_compute; reflexivity|]. apply small_steps; [exact ray_small|exact S1]. }
  assert (RS : dense_reach Bops LAB 1 0 2 s) by (eapply dr_new; exact EN).
  assert (EO : ds_options (fst (first_call s)) = ds_options s).
  { destruct (dense_solve_inv Bops LAB 1 0 2 s qp_ray_B Owned x_start (Bint 0)) as [_ EO]; [eapply dense_reach_inv; exact RS|exact I|exact EO]. }
  split; [exact C1|]. split; [exact C2|]. split; [lia|].
  split; [rewrite EO; exists (p_display (ds_options s)); destruct (ds_options s); reflexivity|].
  split; [intro E; rewrite <- E, N7 in NE; discriminate NE|].
  unfold flagged in FL. fold (second_call s). destruct (sr_out (snd (second_call s))) as [out|e|u] eqn:E; try discriminate.
  rewrite !andb_true_iff in FL. destruct FL as ((((F & T1) & Z1) & _) & _). destruct (small_num_ok _ T1) as (T2 & T3).
  exists d, out. cbv zeta. split; [apply data_finite; vm_compute; reflexivity|]. split; [reflexivity|]. split; [exact EV|]. split; [exact I|].
  split; [apply small_steps; [exact ray_small|exact S2]|]. split; [exact E|]. split; [destruct (so_eflag out); congruence|]. split; [exact T2|].
  split; [intro i; apply (small_nums _ i Z1)|].
  apply small_direction; [exact ray_small| |intro i; apply (small_nums _ i Z1)].
  assert (R2 : dense_reach Bops LAB 1 0 2 (fst (first_call s))) by (apply dr_solve; [exact RS|exact I]).
  assert (SC := sc_dense Bops LAB _ _ _ _ _ _ _ _ (Bint 0) R2 EC EV (I : y_fits Owned x_start (Z.to_nat 2))).
  pose proof (solve_itol_B _ _ _ _ _ _ _ _ _ _ _ SC T2) as T4. unfold Bval in T4. pose proof (Rle_abs (B2R (p_infeas_tol (ds_options (fst (first_call s)))))). lra.
Qed.
