(* Concrete calls with an output stream that throws in the middle of an event (C66). *)
From Verif Require Import Examples Refuted PropsStream PropsMessages WitnessStream.
From Coq Require Import String List Floats.SpecFloat.
Import ListNotations.
Local Open Scope Z_scope.

(* takes n messages and throws at the next *)
Definition first_strings (n : nat) (l : list string) : bool := (List.length l <=? n)%nat.

(* The stream throws at the sixth message of an eight-message summary.  A call that converged
   leaves z as it was; one that was allowed two Newton steps has written z. *)
Example C66_messages_example : exists s1 s2,
  dense_reach Fops LAF 2 0 2 s1 /\ dense_reach Fops LAF 2 0 2 s2 /\
  let x := fx_ [0;0] [] [0;0] [] in
  let r1 := snd (FBstabDense_Solve Fops LAF s1 qp_ok Owned x (Fint 0)) in
  let c1 := snd (FBstabDense_SolveOn Fops LAF (stream_of_messages (first_strings 5)) s1 qp_ok Owned x (Fint 0)) in
  let c2 := snd (FBstabDense_SolveOn Fops LAF (stream_of_messages (first_strings 5)) s2 qp_ok Owned x (Fint 0)) in
  List.length (messages (sr_log r1)) = 8%nat /\
  takes_messages (first_strings 5) (firstn 5 (messages (sr_log r1))) /\
  first_strings 5 (firstn 6 (messages (sr_log r1))) = false /\
  sr_out c1 = Throw EStream /\ nth 0 (v_z (sr_x c1)) (Fint 1) = Fint 0 /\
  sr_out c2 = Throw EStream /\ o_eqb Fops (nth 0 (v_z (sr_x c2)) (Fint 0)) (Fint 0) = false.
Proof.
  destruct (on_stream_ok 2 0 2 (with_display dflt FINAL) (stream_of_messages (first_strings 5)) qp_ok
    (fx_ [0;0] [] [0;0] [])
    (fun r r' => thrown (sr_out r') && (List.length (messages (sr_log r)) =? 8)%nat &&
       match nth 0 (v_z (sr_x r')) (Fint 1) with S754_zero false => true | _ => false end)) as (s1 & R1 & K1);
    [vm_compute; reflexivity|].
  destruct (on_stream_ok 2 0 2 (with_display (with_limits 2 30 50 20 dflt) FINAL)
    (stream_of_messages (first_strings 5)) qp_ok (fx_ [0;0] [] [0;0] [])
    (fun _ r' => thrown (sr_out r') && negb (o_eqb Fops (nth 0 (v_z (sr_x r')) (Fint 0)) (Fint 0)))) as (s2 & R2 & K2);
    [vm_compute; reflexivity|].
  rewrite !andb_true_iff, Nat.eqb_eq in K1. destruct K1 as [[A1 A2] A3].
  rewrite !andb_true_iff, negb_true_iff in K2. destruct K2 as [B1 B2].
  exists s1, s2. split; [exact R1|]. split; [exact R2|]. cbv zeta.
  split; [exact A2|]. split; [|split; [|split; [apply thrown_ok; exact A1|split; [|split; [apply thrown_ok; exact B1|exact B2]]]]].
  - intros p m q E. unfold first_strings. rewrite app_length. apply Nat.leb_le.
    apply (f_equal (@List.length string)) in E. rewrite firstn_length, A2, app_length in E. cbn [List.length] in E |- *. lia.
  - unfold first_strings. apply Nat.leb_gt. rewrite firstn_length, A2. lia.
  - destruct (nth 0 (v_z _) (Fint 1)) as [[]| | |]; try discriminate A3. reflexivity.
Qed.
