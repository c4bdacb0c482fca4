(* Concrete calls for C74: an untouched solver, and the reliable and struct options. *)
From Verif Require Import Examples Refuted PropsPresets.
From Coq Require Import Floats.SpecFloat.
Local Open Scope Z_scope.

Definition ran (s : dense_solver F64) : option (exit_flag * Z * Z) :=
  match summary (snd (FBstabDense_Solve Fops LAF s qp_ok Owned (fx_ [0;0] [] [0;0] []) (Fint 0))) with
  | Ok q => Some q | _ => None end.

Example C74_example : exists s, FBstabDense_new Fops g0 2 0 2 = Ok s /\
  ran s = Some (SUCCESS, 5, 2) /\
  (exists n p, ran (fst (FBstabDense_UpdateOptions Fops s (ReliableParameters Fops))) = Some (SUCCESS, n, p) /\ 0 < n /\ 0 < p) /\
  (exists n p, ran (fst (FBstabDense_UpdateOptions Fops s (struct_defaults Fops))) = Some (SUCCESS, n, p) /\ 0 < n /\ 0 < p).
Proof.
  assert (K : match FBstabDense_new Fops g0 2 0 2 with
    | Ok s => (ran s, ran (fst (FBstabDense_UpdateOptions Fops s (ReliableParameters Fops))),
               ran (fst (FBstabDense_UpdateOptions Fops s (struct_defaults Fops))))
    | _ => (None, None, None) end = (Some (SUCCESS, 5, 2), Some (SUCCESS, 5, 2), Some (SUCCESS, 5, 2)))
    by (vm_compute; reflexivity).
  destruct (FBstabDense_new Fops g0 2 0 2) as [s|e|u]; [|discriminate K|discriminate K].
  exists s. split; [reflexivity|].
  generalize dependent (ran s).
  generalize (ran (fst (FBstabDense_UpdateOptions Fops s (ReliableParameters Fops)))).
  generalize (ran (fst (FBstabDense_UpdateOptions Fops s (struct_defaults Fops)))).
  intros a b c K. injection K as -> -> ->. split; [reflexivity|].
  split; do 2 eexists; (split; [reflexivity|]); lia.
Qed.
