(* C23-C26: the products of the MPC data class, the QP it stands for, ForcingNorm. *)
From Verif Require Export MpcExplicit DenseR.
Local Open Scope R_scope.

(* [d] was built from the problem [qp], whose sequences are valid and whose vectors are columns *)
Definition built (qp : mpc_ref R) (d : mpc_data R) : Prop :=
  seqs_valid qp /\ single_columns qp /\ MpcData_ctor Rops qp = Ok d.

(* ---------------------------------------------------------------- C23 *)
(* gemvX(x,a,b,y) is a*X*x + b*y for the explicit matrix X, entry by entry; axpyf/h/b add a*f etc. *)
Theorem C23_mpc_products : forall qp d, built qp d ->
  let P := ocp_qp (ocp_of qp) in
  (forall x a b y, length x = n_z P -> length y = n_z P -> exists r,
    mpc_gemvH Rops d x a b y = Ok r /\ length r = n_z P /\
    forall i, (i < n_z P)%nat -> rg r i = a * times (n_z P) (cH P) (rg x) i + b * rg y i) /\
  (forall x a b y, length x = n_z P -> length y = n_l P -> exists r,
    mpc_gemvG Rops d x a b y = Ok r /\ length r = n_l P /\
    forall i, (i < n_l P)%nat -> rg r i = a * times (n_z P) (cG P) (rg x) i + b * rg y i) /\
  (forall x a b y, length x = n_z P -> length y = n_v P -> exists r,
    mpc_gemvA Rops d x a b y = Ok r /\ length r = n_v P /\
    forall i, (i < n_v P)%nat -> rg r i = a * times (n_z P) (cA P) (rg x) i + b * rg y i) /\
  (forall x a b y, a = 1 \/ a = -1 -> length x = n_l P -> length y = n_z P -> exists r,
    mpc_gemvGT Rops d x a b y = Ok r /\ length r = n_z P /\
    forall i, (i < n_z P)%nat -> rg r i = a * ttimes (n_l P) (cG P) (rg x) i + b * rg y i) /\
  (forall x a b y, length x = n_v P -> length y = n_z P -> exists r,
    mpc_gemvAT Rops d x a b y = Ok r /\ length r = n_z P /\
    forall i, (i < n_z P)%nat -> rg r i = a * ttimes (n_v P) (cA P) (rg x) i + b * rg y i) /\
  (forall a y, length y = n_z P -> exists r, mpc_axpyf Rops d a y = Ok r /\ length r = n_z P /\
    forall i, (i < n_z P)%nat -> rg r i = a * cf P i + rg y i) /\
  (forall a y, length y = n_l P -> exists r, mpc_axpyh Rops d a y = Ok r /\ length r = n_l P /\
    forall i, (i < n_l P)%nat -> rg r i = a * ch P i + rg y i) /\
  (forall a y, length y = n_v P -> exists r, mpc_axpyb Rops d a y = Ok r /\ length r = n_v P /\
    forall i, (i < n_v P)%nat -> rg r i = a * cb P i + rg y i).
Proof.
  intros qp d (V & C & E) P. destruct (mpc_built qp d V C E) as (K & S & _).
  split; [intros; apply mpcH; assumption|]. split; [intros; apply mpcG; assumption|].
  split; [intros; apply mpcA; assumption|].
  split; [intros x a b y [->| ->]; intros; (apply mpcGT; [assumption|assumption|lra|assumption|assumption])|].
  split; [intros; apply mpcAT; assumption|]. split; [intros; apply mpcf; assumption|].
  split; [intros; apply mpch; assumption|]. intros; apply mpcb; assumption.
Qed.

(* ---------------------------------------------------------------- C24 *)
(* gemvGT for an arbitrary scaling: right on every state entry; on the control entries the
   product is left out entirely unless a is 1 or -1 *)
Theorem C24_gemvGT_exact : forall qp d, built qp d ->
  let o := ocp_of qp in let P := ocp_qp o in let w := (onx o + onu o)%nat in
  forall x a b y, length x = n_l P -> length y = n_z P -> exists r,
    mpc_gemvGT Rops d x a b y = Ok r /\ length r = n_z P /\
    (forall k i, (k < oN o + 1)%nat -> (i < onx o)%nat ->
       rg r (k * w + i)%nat = a * ttimes (n_l P) (cG P) (rg x) (k * w + i) + b * rg y (k * w + i)%nat) /\
    (forall k i, (k < oN o + 1)%nat -> (i < onu o)%nat ->
       rg r (k * w + onx o + i)%nat =
       (if Req_EM_T a 1 then a else if Req_EM_T a (-1) then a else 0) *
         ttimes (n_l P) (cG P) (rg x) (k * w + onx o + i) + b * rg y (k * w + onx o + i)%nat).
Proof.
  intros qp d (V & C & E) o P w x a b y Lx Ly. destruct (mpc_built qp d V C E) as (K & S & _).
  destruct (mpcGT_gen d o K S x a b y Lx Ly) as (r & Er & Lr & V1 & V2).
  exists r. split; [exact Er|]. split; [exact Lr|]. split; [exact V1|]. intros k i Hk Hi.
  fold w in V2. rewrite V2 by assumption. fold P. f_equal. f_equal. unfold ua.
  destruct (Reqb a 1) eqn:E1; [apply Reqb_true in E1|apply Reqb_false in E1];
    destruct (Req_EM_T a 1) as [F1|F1]; try contradiction; cbn [orb]; [reflexivity|].
  destruct (Reqb a (-(1))) eqn:E2; [apply Reqb_true in E2|apply Reqb_false in E2];
    destruct (Req_EM_T a (-1)) as [F2|F2]; try reflexivity; exfalso; lra.
Qed.

(* a problem with one state, one control, one constraint, two stages *)
Definition rseq (n : Z) (l : list R) : mapseq R := mkMap n 1 1 (n * 1 * 1) (Some l).
Definition ocpR : mpc_ref R :=
  mkMR (rseq 2 [1; 1]) (rseq 2 [1; 1]) (rseq 2 [0; 0]) (rseq 2 [0; 0]) (rseq 2 [1; 1])
       (rseq 1 [1]) (rseq 1 [1]) (rseq 1 [0]) (rseq 2 [1; 0]) (rseq 2 [-1; -1]) (rseq 2 [0; 0]) [2].
Example ocpR_built : exists d, built ocpR d.
Proof.
  assert (V : forall n l, (0 < n < 100)%Z -> (n <= Z.of_nat (length l))%Z -> seq_valid (rseq n l)).
  { intros n l H1 H2. unfold seq_valid, rseq; cbn [mp_N mp_nr mp_nc mp_mem].
    repeat split; try lia.
    - unfold in_int, int_min, int_max. apply andb_true_intro. rewrite !Z.leb_le. lia.
    - intros _. exists l. split; [reflexivity|lia]. }
  assert (B : forall n, imul n 1 = if in_int n then Ok n else UB UBOverflow).
  { intro n. unfold imul. rewrite Z.mul_1_r. reflexivity. }
  eexists. split; [constructor; apply V; cbn; lia|]. split; [repeat split|].
  unfold MpcData_ctor. vm_compute. reflexivity.
Qed.

Theorem C24_gemvGT_any_scaling_refuted : exists qp d x a b y r i, built qp d /\
  let P := ocp_qp (ocp_of qp) in
  length x = n_l P /\ length y = n_z P /\ mpc_gemvGT Rops d x a b y = Ok r /\ (i < n_z P)%nat /\
  rg r i <> a * ttimes (n_l P) (cG P) (rg x) i + b * rg y i.
Proof.
  destruct ocpR_built as (d & B).
  destruct (C24_gemvGT_exact ocpR d B [0; 1] 2 0 [0; 0; 0; 0] eq_refl eq_refl) as (r & E & L & _ & V).
  exists ocpR, d, [0; 1], 2, 0, [0; 0; 0; 0], r, 1%nat. split; [exact B|]. cbv zeta.
  split; [reflexivity|]. split; [reflexivity|]. split; [exact E|].
  split; [change (1 < 4)%nat; lia|].
  specialize (V 0%nat 0%nat). change (0 * (onx (ocp_of ocpR) + onu (ocp_of ocpR)) + onx (ocp_of ocpR) + 0)%nat with 1%nat in V.
  rewrite V by (change (0 < 1)%nat || change (0 < 2)%nat; lia).
  destruct (Req_EM_T 2 1); [lra|]. destruct (Req_EM_T 2 (-1)); [lra|].
  assert (T : ttimes (n_l (ocp_qp (ocp_of ocpR))) (cG (ocp_qp (ocp_of ocpR))) (rg [0; 1]) 1 = 1).
  { pose proof (GT_u (ocp_of ocpR) (rg [0; 1]) 0 0) as G.
    change (0 * (onx (ocp_of ocpR) + onu (ocp_of ocpR)) + onx (ocp_of ocpR) + 0)%nat with 1%nat in G.
    rewrite G by (change (0 < 1)%nat; lia). unfold ttimes. change (onx (ocp_of ocpR)) with 1%nat.
    cbn. change (Pos.to_nat 1) with 1%nat. cbn. lra. }
  rewrite T. cbn. lra.
Qed.

(* ---------------------------------------------------------------- C25 *)
Section OCP_QP.
  Variable o : OCP.
  Notation w := (onx o + onu o)%nat. Notation P := (ocp_qp o).

  Lemma stack_x x u k i : (i < onx o)%nat -> xs o (stack o x u) k i = x k i.
  Proof.
    intro H. unfold xs, stack. rewrite blk_div, blk_mod by lia.
    replace (i <? onx o)%nat with true by (symmetry; apply Nat.ltb_lt; exact H). reflexivity.
  Qed.
  Lemma stack_u x u k i : (i < onu o)%nat -> us o (stack o x u) k i = u k i.
  Proof.
    intro H. unfold us, stack. replace (k * w + onx o + i)%nat with (k * w + (onx o + i))%nat by lia.
    rewrite blk_div, blk_mod by lia.
    replace (onx o + i <? onx o)%nat with false by (symmetry; apply Nat.ltb_ge; lia). f_equal. lia.
  Qed.
  Lemma times_ext m M x y i : (forall j, (j < m)%nat -> x j = y j) -> times m M x i = times m M y i.
  Proof. intro H. apply rsum_ext. intros j Hj. rewrite H by exact Hj. reflexivity. Qed.

  (* every decision vector is a stacked trajectory *)
  Theorem C25_every_z_is_a_trajectory : forall z p, (p < n_z P)%nat -> stack o (xs o z) (us o z) p = z p.
  Proof.
    intro z. apply (flat_xu o (fun p => stack o (xs o z) (us o z) p = z p)); intros k i Hk Hi.
    - exact (stack_x (xs o z) (us o z) k i Hi).
    - exact (stack_u (xs o z) (us o z) k i Hi).
  Qed.

  Theorem C25_feasible_iff_trajectory : forall x u, feasible P (stack o x u) <-> trajectory o x u.
  Proof.
    intros x u. split.
    - intros [F1 F2]. split; [|split].
      + intros i Hi. specialize (F1 i). rewrite G_0, h_0, stack_x in F1 by exact Hi.
        assert (i < n_l P)%nat by (cbn [n_l ocp_qp]; nia). specialize (F1 H). lra.
      + intros k i Hk Hi. specialize (F1 (S k * onx o + i)%nat). rewrite G_S, h_S, stack_x in F1 by assumption.
        rewrite (times_ext _ _ (xs o (stack o x u) k) (x k)) in F1 by (intros; apply stack_x; assumption).
        rewrite (times_ext _ _ (us o (stack o x u) k) (u k)) in F1 by (intros; apply stack_u; assumption).
        assert (S k * onx o + i < n_l P)%nat by (cbn [n_l ocp_qp]; nia). specialize (F1 H). lra.
      + intros k i Hk Hi. specialize (F2 (k * onc o + i)%nat). rewrite A_row, b_row in F2 by assumption.
        rewrite (times_ext _ _ (xs o (stack o x u) k) (x k)) in F2 by (intros; apply stack_x; assumption).
        rewrite (times_ext _ _ (us o (stack o x u) k) (u k)) in F2 by (intros; apply stack_u; assumption).
        assert (k * onc o + i < n_v P)%nat by (cbn [n_v ocp_qp]; nia). specialize (F2 H). lra.
    - intros (T1 & T2 & T3). split.
      + cbn [n_l ocp_qp]. apply flat. intros [|k] i Hk Hi.
        * cbn [Nat.mul Nat.add]. rewrite G_0, h_0, stack_x by exact Hi. rewrite T1 by exact Hi. reflexivity.
        * rewrite G_S, h_S, stack_x by (assumption || lia).
          rewrite (times_ext _ _ (xs o (stack o x u) k) (x k)) by (intros; apply stack_x; assumption).
          rewrite (times_ext _ _ (us o (stack o x u) k) (u k)) by (intros; apply stack_u; assumption).
          rewrite T2 by (assumption || lia). lra.
      + cbn [n_v ocp_qp]. apply flat. intros k i Hk Hi. rewrite A_row, b_row by assumption.
        rewrite (times_ext _ _ (xs o (stack o x u) k) (x k)) by (intros; apply stack_x; assumption).
        rewrite (times_ext _ _ (us o (stack o x u) k) (u k)) by (intros; apply stack_u; assumption).
        specialize (T3 k i Hk Hi). lra.
  Qed.

  (* quadratic and linear parts, stage by stage *)
  Definition stage_quad (k : nat) (x u : nat -> R) : R :=
    bil (onx o) (onx o) (cQ o k) x x + 2 * bil (onu o) (onx o) (cS o k) u x + bil (onu o) (onu o) (cR o k) u u.
  Lemma bil_times r c M u v : bil r c M u v = rsum r (fun i => u i * times c M v i).
  Proof.
    apply rsum_ext. intros i Hi. unfold times. rewrite <- rsum_scal. apply rsum_ext. intros. ring.
  Qed.
  Lemma bil_ttimes r c M u v : bil r c M u v = rsum c (fun j => v j * ttimes r M u j).
  Proof.
    unfold bil. rewrite rsum_swap. apply rsum_ext. intros j Hj. unfold ttimes. rewrite <- rsum_scal.
    apply rsum_ext. intros. ring.
  Qed.
  Lemma quad_stages z : quad P z = rsum (oN o + 1) (fun k => stage_quad k (xs o z k) (us o z k)).
  Proof.
    unfold quad. rewrite (rsum_ext (n_z P) _ (fun p => z p * times (n_z P) (cH P) z p)).
    2:{ intros p Hp. unfold times. rewrite <- rsum_scal. apply rsum_ext. intros. ring. }
    change (n_z P) with ((oN o + 1) * w)%nat at 1. rewrite rsum_blocks. apply rsum_ext. intros k Hk.
    rewrite rsum_split.
    rewrite (rsum_ext (onx o) _ (fun i => xs o z k i * times (onx o) (cQ o k) (xs o z k) i +
        xs o z k i * ttimes (onu o) (cS o k) (us o z k) i)).
    2:{ intros i Hi. rewrite H_x by assumption. fold (xs o z k i). ring. }
    rewrite (rsum_ext (onu o) _ (fun i => us o z k i * times (onx o) (cS o k) (xs o z k) i +
        us o z k i * times (onu o) (cR o k) (us o z k) i)).
    2:{ intros i Hi. replace (k * w + (onx o + i))%nat with (k * w + onx o + i)%nat by lia.
        rewrite H_u by assumption. fold (us o z k i). ring. }
    rewrite !rsum_add. unfold stage_quad. rewrite (bil_times (onx o) (onx o)), (bil_times (onu o) (onu o)).
    rewrite <- (bil_times (onu o) (onx o)), <- (bil_ttimes (onu o) (onx o)). lra.
  Qed.
  Lemma bil_ext r c M u u' v v' : (forall i, (i < r)%nat -> u i = u' i) -> (forall i, (i < c)%nat -> v i = v' i) ->
    bil r c M u v = bil r c M u' v'.
  Proof.
    intros H1 H2. apply rsum_ext. intros i Hi. apply rsum_ext. intros j Hj. rewrite H1, H2 by assumption. reflexivity.
  Qed.

  Theorem C25_objective_is_cost : forall x u, objective P (stack o x u) = total_cost o x u.
  Proof.
    intros x u. unfold objective, total_cost. rewrite quad_stages.
    change (n_z P) with ((oN o + 1) * w)%nat. rewrite rsum_blocks, <- rsum_scal, <- rsum_add.
    apply rsum_ext. intros k Hk. unfold stage_cost, stage_quad.
    rewrite (bil_ext (onx o) (onx o) _ (xs o (stack o x u) k) (x k) _ (x k)) by (intros; apply stack_x; assumption).
    rewrite (bil_ext (onu o) (onx o) _ (us o (stack o x u) k) (u k) _ (x k)) by (intros; apply stack_x || apply stack_u; assumption).
    rewrite (bil_ext (onu o) (onu o) _ (us o (stack o x u) k) (u k) _ (u k)) by (intros; apply stack_u; assumption).
    rewrite rsum_split. symmetry; rewrite Rplus_assoc; symmetry. apply (f_equal2 Rplus eq_refl). f_equal; apply rsum_ext; intros i Hi.
    - rewrite f_x by exact Hi. f_equal. apply (stack_x x u k i Hi).
    - replace (k * w + (onx o + i))%nat with (k * w + onx o + i)%nat by lia.
      rewrite f_u by exact Hi. f_equal. apply (stack_u x u k i Hi).
  Qed.

  (* a stage-wise convex OCP is a convex QP, and conversely *)
  Theorem C25_convex : stagewise_convex o -> convex P.
  Proof.
    intros (CQ & CR & CP). split.
    - change (n_z P) with ((oN o + 1) * w)%nat.
      intros p q Hp Hq. cbn [cH ocp_qp].
      assert (W : (w <> 0)%nat) by lia.
      assert (Bp : (p / w < oN o + 1)%nat) by (apply Nat.div_lt_upper_bound; lia).
      assert (Mp := Nat.mod_upper_bound p w W). assert (Mq := Nat.mod_upper_bound q w W).
      rewrite (Nat.eqb_sym (q / w)). destruct (Nat.eqb_spec (p / w) (q / w)) as [Ek|Ek]; [|reflexivity].
      rewrite <- Ek. unfold stageH.
      destruct (Nat.ltb_spec (p mod w) (onx o)); destruct (Nat.ltb_spec (q mod w) (onx o)); try reflexivity.
      + apply CQ; assumption.
      + apply CR; lia.
    - intro z. rewrite quad_stages. apply rsum_nonneg. intros k Hk. apply CP. exact Hk.
  Qed.

  Theorem C25_convex_iff : convex P <-> stagewise_convex o.
  Proof.
    split; [|exact C25_convex]. intros [Sy Ps]. split; [|split].
    - intros k i j Hk Hi Hj. assert (K := Sy (k * w + i)%nat (k * w + j)%nat). cbn [n_z ocp_qp cH] in K.
      rewrite !blk_div, !blk_mod, Nat.eqb_refl in K by lia. unfold stageH in K.
      assert (Li : (i <? onx o)%nat = true) by (apply Nat.ltb_lt; lia).
      assert (Lj : (j <? onx o)%nat = true) by (apply Nat.ltb_lt; lia).
      rewrite Li, Lj in K. apply K; nia.
    - intros k i j Hk Hi Hj. assert (K := Sy (k * w + (onx o + i))%nat (k * w + (onx o + j))%nat). cbn [n_z ocp_qp cH] in K.
      rewrite !blk_div, !blk_mod, Nat.eqb_refl in K by lia. unfold stageH in K.
      assert (Li : (onx o + i <? onx o)%nat = false) by (apply Nat.ltb_ge; lia).
      assert (Lj : (onx o + j <? onx o)%nat = false) by (apply Nat.ltb_ge; lia).
      rewrite Li, Lj in K. replace (onx o + i - onx o)%nat with i in K by lia.
      replace (onx o + j - onx o)%nat with j in K by lia. apply K; nia.
    - intros k x u Hk.
      set (xx := fun k' i => if Nat.eqb k' k then x i else 0). set (uu := fun k' i => if Nat.eqb k' k then u i else 0).
      assert (K := Ps (stack o xx uu)). rewrite quad_stages in K.
      rewrite (rsum_ext _ _ (fun k' => if Nat.eqb k' k then stage_quad k' x u else 0)) in K.
      + rewrite (rsum_if_eq (oN o + 1) k (fun k' => stage_quad k' x u) Hk) in K. exact K.
      + intros k' Hk'. unfold stage_quad.
        rewrite (bil_ext (onx o) (onx o) _ (xs o (stack o xx uu) k') (xx k') _ (xx k')) by (intros; apply stack_x; assumption).
        rewrite (bil_ext (onu o) (onx o) _ (us o (stack o xx uu) k') (uu k') _ (xx k')) by (intros; apply stack_x || apply stack_u; assumption).
        rewrite (bil_ext (onu o) (onu o) _ (us o (stack o xx uu) k') (uu k') _ (uu k')) by (intros; apply stack_u; assumption).
        unfold xx, uu. destruct (Nat.eqb k' k); [reflexivity|].
        assert (Z : forall r c M, bil r c M (fun _ => 0) (fun _ => 0) = 0).
        { intros. unfold bil. apply rsum_zero. intros. apply rsum_zero. intros. ring. }
        rewrite !Z. ring.
  Qed.

  (* hence: z solves the QP exactly if its trajectory is optimal for the OCP *)
  Definition optimal_trajectory (x u : nat -> nat -> R) : Prop :=
    trajectory o x u /\ forall x' u', trajectory o x' u' -> total_cost o x u <= total_cost o x' u'.

  Lemma feasible_ext z z' : (forall p, (p < n_z P)%nat -> z p = z' p) -> feasible P z -> feasible P z'.
  Proof.
    intros H [F1 F2]. split; intros k Hk.
    - rewrite <- (times_ext _ _ z z') by exact H. auto.
    - rewrite <- (times_ext _ _ z z') by exact H. auto.
  Qed.
  Lemma objective_ext z z' : (forall p, (p < n_z P)%nat -> z p = z' p) -> objective P z = objective P z'.
  Proof.
    intro H. unfold objective, quad. f_equal; [f_equal|]; apply rsum_ext; intros i Hi.
    - apply rsum_ext. intros j Hj. rewrite !H by assumption. reflexivity.
    - rewrite H by exact Hi. reflexivity.
  Qed.

  Theorem C25_minimiser_iff_optimal : forall x u, minimiser P (stack o x u) <-> optimal_trajectory x u.
  Proof.
    intros x u. unfold minimiser, optimal_trajectory. rewrite C25_feasible_iff_trajectory, C25_objective_is_cost.
    split; intros [T M]; (split; [exact T|]).
    - intros x' u' T'. rewrite <- (C25_objective_is_cost x' u'). apply M. apply C25_feasible_iff_trajectory. exact T'.
    - intros z F. rewrite <- (objective_ext (stack o (xs o z) (us o z)) z) by apply C25_every_z_is_a_trajectory.
      rewrite C25_objective_is_cost. apply M. apply C25_feasible_iff_trajectory.
      apply (feasible_ext z); [|exact F]. intros p Hp. symmetry. apply C25_every_z_is_a_trajectory. exact Hp.
  Qed.
End OCP_QP.

(* ---------------------------------------------------------------- C26 *)
Definition vec_sq (n : nat) (f : nat -> R) : R := rsum n (fun i => f i * f i).

Theorem C26_dense_forcing_norm : forall H f G h A b d,
  DenseData_ctor Rops (Some H) (Some f) (Some G) (Some h) (Some A) (Some b) = Ok d ->
  di_fnorm (denseDI Rops) d = sqrt (vec_sq (length f) (rg f) + vec_sq (length h) (rg h) + vec_sq (length b) (rg b)).
Proof.
  intros H f G h A b d E. destruct (dense_explicit _ _ _ _ _ _ _ E) as [_ EX]. apply (ex_fnorm _ _ _ EX).
Qed.
Theorem C26_mpc_forcing_norm : forall qp d, built qp d ->
  let o := ocp_of qp in let P := ocp_qp o in
  di_fnorm (mpcDI Rops) d = sqrt (vec_sq (n_z P) (cf P) + vec_sq (n_l P) (ch P) + vec_sq (n_v P) (cb P)).
Proof. intros qp d (V & C & E) o P. apply (ex_fnorm _ _ _ (mpc_explicit qp d V C E)). Qed.

Print Assumptions C23_mpc_products.
Print Assumptions C24_gemvGT_exact.
Print Assumptions C24_gemvGT_any_scaling_refuted.
Print Assumptions C25_minimiser_iff_optimal.
Print Assumptions C25_convex_iff.
Print Assumptions C26_dense_forcing_norm.
Print Assumptions C26_mpc_forcing_norm.
