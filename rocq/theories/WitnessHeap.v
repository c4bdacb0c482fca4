(* Concrete programs with matrix sequences (C67). *)
From Verif Require Import Examples Refuted PropsHeap.
Local Open Scope Z_scope.

Definition entry (r : res (mat F64)) : option (list F64) := match r with Ok m => Some (me m) | _ => None end.
(* s0 two 1x1 matrices (1, 2); s1 a copy; view 0 of s0, view 1 of s1; then s0(0) = 3 *)
Definition prog : list (op (T:=F64)) :=
  [SeqNew 0 2 1 1; SeqWrite 0 0 0 0 (Fint 1); SeqWrite 0 1 0 0 (Fint 2); SeqCopy 1 0;
   MapOf 0 0; MapOf 1 1; SeqWrite 0 0 0 0 (Fint 3)].

Definition after_prog (more : list op) (P : hst -> bool) : bool :=
  match run Fops (prog ++ more) heap_init with Ok st => P st | _ => false end.

Definition shows (r : res (mat F64)) (a : Z) : bool :=
  match r with Ok m => match me m with [b] => o_eqb Fops b (Fint a) | _ => false end | _ => false end.
Definition dangles (r : res (mat F64)) : bool := match r with UB UBDangling => true | _ => false end.

(* the copy kept 1; both views follow their sequences; a move changes nothing a view shows; a
   moved-from sequence cannot be indexed, and its views throw; destruction leaves a view dangling, and so
   does an assignment that reallocates *)
Example C67_example :
  after_prog [] (fun st => shows (seq_at st 0 0) 3 && shows (seq_at st 1 0) 1 &&
                           shows (map_at st 0 0) 3 && shows (map_at st 1 0) 1) = true /\
  after_prog [SeqMove 2 0; MapOf 2 0] (fun st => shows (seq_at st 2 0) 3 && shows (map_at st 0 0) 3 && is_ub (seq_at st 0 0) &&
     match map_at st 2 0 with Throw ENullSeq => true | _ => false end) = true /\
  after_prog [SeqDrop 0] (fun st => dangles (map_at st 0 1) && shows (map_at st 1 1) 2) = true /\
  after_prog [SeqAssign true 0 1] (fun st => shows (map_at st 0 0) 1) = true /\
  after_prog [SeqAssign false 0 1] (fun st => dangles (map_at st 0 0) && shows (seq_at st 0 0) 1) = true /\
  after_prog [SeqDrop 0; SeqDrop 1] (fun st => match h_seq st 0%nat, h_seq st 1%nat with None, None => true | _, _ => false end) = true.
Proof. repeat split; vm_compute; reflexivity. Qed.

(* "indexing a sequence object returns a matrix or throws" is false for a moved-from object *)
Theorem C67_index_defined_refuted :
  ~ (forall (st : hst (T:=F64)) x k r, reached Fops st -> seq_dims st x = Ok r -> is_ub (seq_at st x k) = false).
Proof.
  intro H. destruct (run Fops (prog ++ [SeqMove 2 0]) heap_init) as [st|e|u] eqn:E; [| |].
  - assert (K : match run Fops (prog ++ [SeqMove 2 0]) heap_init with
                | Ok st => is_ok (seq_dims st 0) && is_ub (seq_at st 0 0) | _ => false end = true) by (vm_compute; reflexivity).
    rewrite E in K. apply andb_true_iff in K. destruct K as [K1 K2].
    destruct (seq_dims st 0) as [r| |] eqn:D; try discriminate K1.
    rewrite (H st 0%nat 0 r (ex_intro _ _ E) D) in K2. discriminate K2.
  - assert (K : match run Fops (prog ++ [SeqMove 2 0]) heap_init with Ok _ => true | _ => false end = true) by (vm_compute; reflexivity).
    rewrite E in K. discriminate K.
  - assert (K : match run Fops (prog ++ [SeqMove 2 0]) heap_init with Ok _ => true | _ => false end = true) by (vm_compute; reflexivity).
    rewrite E in K. discriminate K.
Qed.

(* Solve on a sequence without storage: the sizes are accepted, then the index throws *)
Definition moved_Q (q : mpc_ref F64) : mpc_ref F64 :=
  mkMR (mkMap (mp_N (m_Q q)) (mp_nr (m_Q q)) (mp_nc (m_Q q)) (mp_nel (m_Q q)) None)
       (m_R q) (m_S q) (m_q q) (m_r q) (m_A q) (m_B q) (m_c q) (m_E q) (m_L q) (m_d q) (m_x0 q).
Example C67_solve_moved_from : exists s,
  mpc_reach Fops LAF 2 1 1 1 s /\
  sr_out (snd (FBstabMpc_Solve Fops LAF s (moved_Q ocp) Owned
    (fx_ [0;0;0;0;0;0] [0;0;0] [0;0;0] [0;0;0]) (Fint 0))) = Throw ENullSeq.
Proof.
  assert (K : match FBstabMpc_new Fops g0 2 1 1 1 with
    | Ok s => match sr_out (snd (FBstabMpc_Solve Fops LAF s (moved_Q ocp) Owned
        (fx_ [0;0;0;0;0;0] [0;0;0] [0;0;0] [0;0;0]) (Fint 0))) with Throw ENullSeq => true | _ => false end
    | _ => false end = true) by (vm_compute; reflexivity).
  destruct (FBstabMpc_new Fops g0 2 1 1 1) as [s|e|u] eqn:E; [|discriminate K|discriminate K].
  exists s. split; [eapply mr_new; exact E|].
  destruct (sr_out _) as [a|e|u]; try discriminate K. destruct e; try discriminate K. reflexivity.
Qed.
