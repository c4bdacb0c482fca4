(* A concrete convex problem with a known solution, solved on doubles: the hypotheses of C68 are met. *)
From Verif Require Import PropsGap WitnessFloat BinOps.
From Flocq Require Import Core.Core IEEE754.BinarySingleNaN.
Local Open Scope R_scope.

Lemma Bint_small z : In z [0; 1; 2; 4; -1]%Z -> B2R (Bint z) = IZR z.
Proof.
  intros [<-|[<-|[<-|[<-|[<-|[]]]]]].
  - assert (Q : B2SF (Bint 0) = SpecFloat.S754_zero false) by (vm_compute; reflexivity).
    destruct (Bint 0) as [s|s| |s m e Bq]; cbn [B2SF] in Q; try discriminate. reflexivity.
  - exact (proj2 Bint1).
  - assert (Q : B2SF (Bint 2) = SpecFloat.S754_finite false 4503599627370496 (-51)) by (vm_compute; reflexivity).
    destruct (Bint 2) as [s|s| |s m e Bq]; cbn [B2SF] in Q; try discriminate. injection Q as -> -> ->.
    unfold B2R, F2R. cbn [Fnum Fexp cond_Zopp]. unfold bpow. cbn. lra.
  - assert (Q : B2SF (Bint 4) = SpecFloat.S754_finite false 4503599627370496 (-50)) by (vm_compute; reflexivity).
    destruct (Bint 4) as [s|s| |s m e Bq]; cbn [B2SF] in Q; try discriminate. injection Q as -> -> ->.
    unfold B2R, F2R. cbn [Fnum Fexp cond_Zopp]. unfold bpow. cbn. lra.
  - assert (Q : B2SF (Bint (-1)) = SpecFloat.S754_finite true 4503599627370496 (-52)) by (vm_compute; reflexivity).
    destruct (Bint (-1)) as [s|s| |s m e Bq]; cbn [B2SF] in Q; try discriminate. injection Q as -> -> ->.
    unfold B2R, F2R. cbn [Fnum Fexp cond_Zopp]. unfold bpow. cbn. lra.
Qed.

Definition qp_eq_R : QP := qp_val (O:=Bops) (val:=Bval) (q_H qp_eq_B) (q_f qp_eq_B) (q_G qp_eq_B) (q_h qp_eq_B) (q_A qp_eq_B) (q_b qp_eq_B).
Definition tbl (l : list R) (i : nat) : R := nth i l 0.

Ltac entries :=
  repeat match goal with |- context [B2R (Bint ?z)] => rewrite (Bint_small z) by (cbn; tauto) end.
Lemma qp_eq_convex : convex qp_eq_R.
Proof.
  split.
  - intros i j Hi Hj. change (n_z qp_eq_R) with 2%nat in *.
    destruct i as [|[|i]]; [| |lia]; (destruct j as [|[|j]]; [| |lia]); reflexivity.
  - intro z. unfold quad. change (n_z qp_eq_R) with 2%nat. cbn [rsum].
    change (cH qp_eq_R 0 0) with (B2R (Bint 4)). change (cH qp_eq_R 0 1) with (B2R (Bint 1)).
    change (cH qp_eq_R 1 0) with (B2R (Bint 1)). change (cH qp_eq_R 1 1) with (B2R (Bint 2)). entries. nra.
Qed.
Lemma qp_eq_KKT : KKT qp_eq_R (tbl [1/4; 3/4]) (tbl [-11/4]) (tbl [0; 0]).
Proof.
  assert (H00 : cH qp_eq_R 0 0 = 4) by exact (Bint_small 4 ltac:(cbn; tauto)).
  assert (H01 : cH qp_eq_R 0 1 = 1) by exact (Bint_small 1 ltac:(cbn; tauto)).
  assert (H10 : cH qp_eq_R 1 0 = 1) by exact (Bint_small 1 ltac:(cbn; tauto)).
  assert (H11 : cH qp_eq_R 1 1 = 2) by exact (Bint_small 2 ltac:(cbn; tauto)).
  assert (f0 : cf qp_eq_R 0 = 1) by exact (Bint_small 1 ltac:(cbn; tauto)).
  assert (f1 : cf qp_eq_R 1 = 1) by exact (Bint_small 1 ltac:(cbn; tauto)).
  assert (g0 : cG qp_eq_R 0 0 = 1) by exact (Bint_small 1 ltac:(cbn; tauto)).
  assert (g1 : cG qp_eq_R 0 1 = 1) by exact (Bint_small 1 ltac:(cbn; tauto)).
  assert (h0 : ch qp_eq_R 0 = 1) by exact (Bint_small 1 ltac:(cbn; tauto)).
  assert (A00 : cA qp_eq_R 0 0 = -1) by exact (Bint_small (-1) ltac:(cbn; tauto)).
  assert (A01 : cA qp_eq_R 0 1 = 0) by exact (Bint_small 0 ltac:(cbn; tauto)).
  assert (A10 : cA qp_eq_R 1 0 = 0) by exact (Bint_small 0 ltac:(cbn; tauto)).
  assert (A11 : cA qp_eq_R 1 1 = -1) by exact (Bint_small (-1) ltac:(cbn; tauto)).
  assert (b0 : cb qp_eq_R 0 = 0) by exact (Bint_small 0 ltac:(cbn; tauto)).
  assert (b1 : cb qp_eq_R 1 = 0) by exact (Bint_small 0 ltac:(cbn; tauto)).
  unfold KKT, feasible, lagr, margin, times, ttimes.
  change (n_z qp_eq_R) with 2%nat. change (n_l qp_eq_R) with 1%nat. change (n_v qp_eq_R) with 2%nat. cbn [rsum].
  split; [|split; [split|]].
  - intros [|[|i]] Hi; [| |lia]; unfold tbl; cbn [nth]; rewrite ?H00, ?H01, ?H10, ?H11, ?f0, ?f1, ?g0, ?g1; lra.
  - intros [|k] Hk; [|lia]; unfold tbl; cbn [nth]; rewrite ?g0, ?g1, ?h0; lra.
  - intros [|[|k]] Hk; [| |lia]; unfold tbl; cbn [nth]; rewrite ?A00, ?A01, ?A10, ?A11, ?b0, ?b1; lra.
  - intros [|[|k]] Hk; [| |lia]; unfold tbl; cbn [nth]; lra.
Qed.

Example C68_example : exists K o r out,
  fsolves Bops Bval LAB qp_eq_R K o (bx_ [0;0] [0] [0;0] [])%Z (Bint 0) r /\ (Z.of_nat K <= 2 ^ 47)%Z /\
  sr_out r = Ok out /\ so_eflag out = SUCCESS /\ is_finite (so_residual out) = true /\ is_finite (p_alpha o) = true /\
  so_newton out = 5%Z /\ convex qp_eq_R /\
  KKT qp_eq_R (tbl [1/4; 3/4]) (tbl [-11/4]) (tbl [0; 0]) /\ feasible qp_eq_R (tbl [1/4; 3/4]).
Proof.
  edestruct (dcall_fsolves Bops Bval LAB b0 2 1 2 dflt_B qp_eq_B Owned (bx_ [0;0] [0] [0;0] [])%Z (Bint 0) (fun o r => good 5 2 o r = true)) as (o & r & H1 & H2);
    [exact I|vm_compute; reflexivity|].
  destruct (good_ok _ _ _ _ H2) as (out & E & F & Fr & Fa & _ & N & _).
  exists 9%nat, o, r, out. split; [exact H1|]. split; [vm_compute; discriminate|].
  repeat (split; [assumption|]). split; [exact qp_eq_convex|]. split; [exact qp_eq_KKT|]. exact (proj1 (proj2 qp_eq_KKT)).
Qed.
