(* Outcomes of C++ calls: normal return, exception, undefined behaviour. *)
From Verif Require Export Scalar.

(* Exceptions thrown by the code; one constructor per throw site family.  All are
   std::runtime_error except [EIndex] (std::out_of_range, matrix_sequence.h:48,55,142) and
   [ELength] (std::length_error, from std::vector). *)
Inductive err : Type :=
| ESaturate        (* tools/utilities.h:21-25 *)
| ECtorSize        (* fbstab_dense.cc:19-23, fbstab_mpc.cc:62-65, full_variable.cc:15-18,
                      full_residual.cc:12-15, full_feasibility.cc:13-15,
                      dense_cholesky_solver.cc:14-17, riccati_linear_solver.cc:18-22 *)
| EDataSize        (* dense_data.h:52-66, mpc_data.cc:291-363 *)
| EInputSize       (* fbstab_dense.h:171-179, fbstab_mpc.h:231-241 *)
| EGemvSize        (* mpc_data.cc size checks in gemv / axpy *)
| ENoData          (* NullDataCheck of the components *)
| ESolverSize      (* size checks in the linear solvers *)
| ESigma           (* sigma <= 0 in the linear solvers *)
| EInitFailed      (* fbstab_algorithm-impl.h:262-265 *)
| ESolveFailed     (* fbstab_algorithm-impl.h:269-272 *)
| ENullArg         (* null pointer argument checks; e.g. dense_cholesky_solver.cc:82,
                      fbstab_algorithm-impl.h:80-94, mpc_data.cc:19 *)
| EIndex           (* matrix_sequence.h:47-49, 54-56, 141-143 *)
| ESeqSize         (* matrix_sequence.h:31-37, 105-116 *)
| ENullSeq         (* matrix_sequence.h:144-147 *)
| EHorizon         (* fbstab/test/ocp_generator.cc:74-77, 172-175, 246-248, 320-322 *)
| ENoProblem       (* fbstab/test/ocp_generator.cc:19-23, 44-48, 57-61 *)
| EStream          (* thrown by Print of the caller's output stream, tools/output_stream.h:22-24,
                      handed to Solve at fbstab_dense.h:136, fbstab_mpc.h:181 *)
| ELength.         (* std::vector::resize above max_size(), tools/qdldl/qdldl_wrapper.h:29-46 *)

(* Undefined behaviour. *)
Inductive ub : Type :=
| UBSize           (* Eigen operation on mismatched sizes / out-of-bounds access *)
| UBNull           (* dereference of a null pointer *)
| UBDangling       (* dereference of a pointer to a dead object *)
| UBOverflow.      (* signed integer overflow *)

Inductive res (A : Type) : Type :=
| Ok (a : A) | Throw (e : err) | UB (u : ub).
Arguments Ok {A}. Arguments Throw {A}. Arguments UB {A}.

Definition rbind {A B} (m : res A) (f : A -> res B) : res B :=
  match m with Ok a => f a | Throw e => Throw e | UB u => UB u end.

Declare Scope res_scope.
Delimit Scope res_scope with res.
Notation "x <- m ;; k" := (rbind m (fun x => k))
  (at level 61, m at next level, right associativity) : res_scope.
Notation "m1 ;; m2" := (rbind m1 (fun _ => m2)) (at level 61, right associativity) : res_scope.

(* if a C++ check fails, throw; if an unchecked precondition fails, UB *)
Definition throw_unless (b : bool) (e : err) : res unit := if b then Ok tt else Throw e.
Definition ub_unless (b : bool) (u : ub) : res unit := if b then Ok tt else UB u.

Definition is_ub {A} (r : res A) : bool := match r with UB _ => true | _ => false end.
Definition is_ok {A} (r : res A) : bool := match r with Ok _ => true | _ => false end.

(* [const Data* data_]: null, pointing at a live object, or at one that is dead. *)
Inductive dptr (D : Type) : Type := PNull | PLive (d : D) | PDangling.
Arguments PNull {D}. Arguments PLive {D}. Arguments PDangling {D}.

(* NullDataCheck followed by a dereference (full_variable.cc:89-95, full_residual.cc:120-125,
   full_feasibility.cc:90-96, dense_cholesky_solver.cc:150-155, riccati_linear_solver.cc:367-373). *)
Definition deref_checked {D} (p : dptr D) : res D :=
  match p with PNull => Throw ENoData | PLive d => Ok d | PDangling => UB UBDangling end.

(* an unchecked [data_->...] (dense_cholesky_solver.cc:95) *)
Definition deref {D} (p : dptr D) : res D :=
  match p with PNull => UB UBNull | PLive d => Ok d | PDangling => UB UBDangling end.

(* C++ int *)
Definition int_min : Z := -2147483648.
Definition int_max : Z := 2147483647.
Definition in_int (z : Z) : bool := ((int_min <=? z) && (z <=? int_max))%Z.
(* signed arithmetic: result or UB *)
Definition iadd (a b : Z) : res Z := if in_int (a + b) then Ok (a + b)%Z else UB UBOverflow.
Definition imul (a b : Z) : res Z := if in_int (a * b) then Ok (a * b)%Z else UB UBOverflow.

(* State monad with exceptions: the state survives a throw. *)
Definition M (S A : Type) : Type := S -> S * res A.
Definition mret {S A} (a : A) : M S A := fun s => (s, Ok a).
Definition mbind {S A B} (m : M S A) (f : A -> M S B) : M S B :=
  fun s => let '(s1, r) := m s in
           match r with Ok a => f a s1 | Throw e => (s1, Throw e) | UB u => (s1, UB u) end.
Definition mlift {S A} (r : res A) : M S A := fun s => (s, r).
Definition mget_ {S A} (f : S -> A) : M S A := fun s => (s, Ok (f s)).
Definition mmod {S} (f : S -> S) : M S unit := fun s => (f s, Ok tt).

Declare Scope m_scope.
Delimit Scope m_scope with m.
Notation "x <~ m ;; k" := (mbind m (fun x => k))
  (at level 61, m at next level, right associativity) : m_scope.
Notation "m1 ;~ m2" := (mbind m1 (fun _ => m2)) (at level 61, right associativity) : m_scope.
