(* Concrete calls on caller memory (C61): one whose data and vectors overlap, reporting a
   residual of a problem that was never posed, and calls meeting the hypotheses of the theorems
   in PropsShared. *)
From Verif Require Import Examples Refuted PropsShared.
From Coq Require Import Floats.SpecFloat.
Local Open Scope Z_scope.

(* a call on memory, through the public API: new solver, UpdateOptions(o), Solve *)
Definition on_memory (nz nl nv : Z) (o : params F64) (m : memory F64) q w
           (P : dense_solver F64 -> mem_result F64 -> bool) : bool :=
  match FBstabDense_new Fops g0 nz nl nv with
  | Ok s0 => let s := fst (FBstabDense_UpdateOptions Fops s0 o) in
             P s (snd (FBstabDense_SolveRef Fops LAF s m q w (Fint 0)))
  | _ => false
  end.
Lemma on_memory_ok nz nl nv o m q w P : on_memory nz nl nv o m q w P = true ->
  exists s, dense_reach Fops LAF nz nl nv s /\
            P s (snd (FBstabDense_SolveRef Fops LAF s m q w (Fint 0))) = true.
Proof.
  unfold on_memory. destruct (FBstabDense_new Fops g0 nz nl nv) as [s0|e|u] eqn:E; try discriminate.
  intro H. eexists. split; [|exact H]. apply dr_update. eapply dr_new. exact E.
Qed.

(* FeasibleQP of fbstab_dense_unit_tests.cc laid out in memory:
   0-3 H, 4-7 A, 8-9 b, 10-11 f, 12-13 z, 14-15 v, 16-17 y *)
Definition mem0 : memory F64 :=
  fun a => Fint (nth a [3;1;1;1; -1;0;0;1; 0;0; 10;5; 0;0; 0;0; 0;0] 0).
Definition qview : dense_view :=
  mkDV (mkView 0 2 2) (mkSpan 10 2) (mkView 4 0 2) (mkSpan 4 0) (mkView 4 2 2) (mkSpan 8 2).
Definition wview : var_view := mkVV (mkSpan 12 2) (mkSpan 12 0) (mkSpan 14 2) (mkSpan 16 2).
(* the same with z stored over f *)
Definition wover : var_view := mkVV (mkSpan 10 2) (mkSpan 12 0) (mkSpan 14 2) (mkSpan 16 2).

Example C61_apart_example : all_apart (vars_of wview) (spans_of_dense qview) /\ vars_apart wview.
Proof.
  split.
  - intros s t Hs Ht a. unfold vars_of, spans_of_dense in *. cbn [In] in *.
    repeat destruct Hs as [<-|Hs]; try contradiction; repeat destruct Ht as [<-|Ht]; try contradiction;
      unfold inside; cbn; lia.
  - unfold vars_apart, apart; repeat split; intro a; unfold inside; cbn; lia.
Qed.
Example C61_call_example : exists s b, dense_reach Fops LAF 2 0 2 s /\
  me_out (snd (FBstabDense_SolveRef Fops LAF s mem0 qview wview (Fint 0))) = Ok b /\ so_eflag b = SUCCESS.
Proof.
  destruct (on_memory_ok 2 0 2 dflt mem0 qview wview (fun _ r => okb (me_out r) (flag_is SUCCESS)))
    as (s & R & K); [vm_compute; reflexivity|].
  apply okb_true in K. destruct K as (b & E & F). exists s, b. split; [exact R|]. split; [exact E|].
  apply flag_is_ok. exact F.
Qed.

(* MAXITERATIONS by the Newton limit, z stored over f: the reported residual is not the
   residual of the returned point for the problem the call was given *)
Theorem C61_posed_residual_refuted :
  ~ (forall nz nl nv s m q w el b,
     dense_reach Fops LAF nz nl nv s -> sp_len (vv_y w) = Z.to_nat nv -> vars_apart w ->
     me_out (snd (FBstabDense_SolveRef Fops LAF s m q w el)) = Ok b ->
     so_eflag b = MAXITERATIONS -> p_max_newton (ds_options s) <= so_newton b ->
     residual_at Fops (denseDI Fops) (fun m' => dense_at Fops m' q) (Z.to_nat nz) (Z.to_nat nl)
       (Z.to_nat nv) (p_alpha (ds_options s)) m
       (load_var (me_mem (snd (FBstabDense_SolveRef Fops LAF s m q w el))) w) (so_residual b)).
Proof.
  intro H.
  destruct (on_memory_ok 2 0 2 (with_limits 1 30 50 20 dflt) mem0 qview wover (fun s r =>
     okb (me_out r) (fun b => flag_is MAXITERATIONS b && (p_max_newton (ds_options s) <=? so_newton b) &&
       okb (dense_at Fops mem0 qview) (fun d =>
         okb (kkt_residual Fops (denseDI Fops) d 2 0 2 (p_alpha (ds_options s)) (load_var (me_mem r) wover))
             (fun e => negb (o_eqb Fops e (so_residual b)) && o_eqb Fops e e)))))
    as (s & R & K); [vm_compute; reflexivity|].
  apply okb_true in K. destruct K as (b & E & K). apply andb_prop in K. destruct K as [K L].
  apply andb_prop in K. destruct K as [F N]. apply flag_is_ok in F. apply Z.leb_le in N.
  assert (VA : vars_apart wover) by (unfold vars_apart, apart; repeat split; intro a; unfold inside; cbn; lia).
  destruct (H 2 0 2 s mem0 qview wover (Fint 0) b R eq_refl VA E F N) as (d & Ed & Ek).
  apply okb_true in L. destruct L as (d' & Ed' & L). rewrite Ed in Ed'. injection Ed' as <-.
  apply okb_true in L. destruct L as (e & Ee & L).
  change (Z.to_nat 2) with 2%nat in Ek. change (Z.to_nat 0) with 0%nat in Ek.
  rewrite Ek in Ee. injection Ee as <-. apply andb_prop in L. destruct L as [L1 L2].
  rewrite L2 in L1. discriminate L1.
Qed.

(* the problem [ocp] of Examples.v (N=2, nx=nu=nc=1) laid out in memory: 0-2 Q, 3-5 R, 6-8 S, q
   and E (zeros, shared), 9-11 r, 12-13 A and B, 6-7 c, 14-16 L, 6-8 d, 17 x0; then the vectors:
   18-23 z, 24-26 l, 27-29 v, 30-32 y *)
Definition mmem : memory F64 := fun a => Fint (nth a [1;1;1; 1;1;1; 0;0;0; 1;1;1; 1;1; -1;-1;-1; 2] 0).
Definition mview_ : mpc_view :=
  let s3 a := mkSview a 3 1 1 in let s2 a := mkSview a 2 1 1 in
  mkMV (s3 0%nat) (s3 3%nat) (s3 6%nat) (s3 6%nat) (s3 9%nat) (s2 12%nat) (s2 12%nat) (s2 6%nat)
       (s3 6%nat) (s3 14%nat) (s3 6%nat) (mkSpan 17 1).
Definition mvars : var_view := mkVV (mkSpan 18 6) (mkSpan 24 3) (mkSpan 27 3) (mkSpan 30 3).

Example C61_mpc_example : exists s b, mpc_reach Fops LAF 2 1 1 1 s /\
  seqs_valid (load_mpc mmem mview_) /\ single_columns (load_mpc mmem mview_) /\
  mpc_fits (load_mpc mmem mview_) /\ all_apart (vars_of mvars) (spans_of_mpc mview_) /\ vars_apart mvars /\
  me_out (snd (FBstabMpc_SolveRef Fops LAF s mmem mview_ mvars (Fint 0))) = Ok b /\ so_eflag b = SUCCESS.
Proof.
  assert (E : match FBstabMpc_new Fops g0 2 1 1 1 with
    | Ok s => okb (me_out (snd (FBstabMpc_SolveRef Fops LAF s mmem mview_ mvars (Fint 0)))) (flag_is SUCCESS) = true
    | _ => False end) by (vm_compute; reflexivity).
  destruct (FBstabMpc_new Fops g0 2 1 1 1) as [s| |] eqn:En; try contradiction.
  apply okb_true in E. destruct E as (b & E & F). apply flag_is_ok in F.
  exists s, b. split; [eapply mr_new; exact En|].
  split.
  { assert (H : forall v, sq_N v = 2 \/ sq_N v = 3 -> sq_nr v = 1 -> sq_nc v = 1 -> seq_valid (load_seq mmem v)).
    { intros v HN H1 H2. unfold seq_valid, load_seq. cbn [mp_N mp_nr mp_nc mp_mem]. rewrite H1, H2.
      repeat split; try lia.
      - destruct HN as [-> | ->]; reflexivity.
      - intros _. eexists. split; [reflexivity|]. rewrite load_len. cbn [sp_len]. lia. }
    constructor; apply H; cbn; auto. }
  split; [repeat split|]. split; [reflexivity|].
  split; [|split; [|split; [exact E|exact F]]].
  - intros p t Hs Ht a. unfold vars_of, spans_of_mpc in *. cbn [In] in *.
    repeat destruct Hs as [<-|Hs]; try contradiction; repeat destruct Ht as [<-|Ht]; try contradiction;
      unfold inside; cbn; lia.
  - unfold vars_apart, apart; repeat split; intro a; unfold inside; cbn; lia.
Qed.
