(* QdldlWrapper (tools/qdldl/qdldl_wrapper.h), the interface to the sparse LDL' package QDLDL.
   QDLDL itself is a git submodule that is not part of /repo: its three functions are
   parameters here ([Qdldl]), each call is guarded by what QDLDL's header asks of the memory it
   is handed ([..._mem]), and what its header promises is a hypothesis of the theorems
   ([QdldlOk], [QdldlExact]).  QdldlInst.v gives one implementation with these properties. *)
From Verif Require Export Vec Outcome.
From Coq Require Export ZArith List Lia.
Import ListNotations.
Local Open Scope Z_scope.

Definition len {A} (l : list A) : Z := Z.of_nat (length l).
(* an int of an int array; 0 outside *)
Definition ig (l : list Z) (i : nat) : Z := nth i l 0.
Definition zsum (l : list Z) : Z := fold_right Z.add 0 l.

(* the positions of the entries of column j in Ai and Ax: Ap[j] <= p < Ap[j+1] *)
Definition col_positions (Ap : list Z) (j : nat) : list nat :=
  seq (Z.to_nat (ig Ap j)) (Z.to_nat (ig Ap (S j) - ig Ap j)).

(* ---------- the functions of QDLDL, with the argument order of qdldl_wrapper.h ---------- *)
Record Qdldl (T : Type) : Type := mkQdldl {
  (* QDLDL_etree(n, Ap, Ai, work, Lnz, etree), as called at qdldl_wrapper.h:38;
     returns its int result and the new contents of work, Lnz, etree *)
  q_etree : nat -> list Z -> list Z -> list Z -> list Z -> list Z -> Z * list Z * list Z * list Z;
  (* QDLDL_factor(n, Ap, Ai, Ax, Lp, Li, Lx, D, Dinv, Lnz, etree, bwork, iwork, fwork), as
     called at qdldl_wrapper.h:52-55; returns its int result and the new contents of Lp, Li, Lx, D, Dinv,
     bwork, iwork, fwork *)
  q_factor : nat -> list Z -> list Z -> list T -> list Z -> list Z -> list T -> list T -> list T ->
             list Z -> list Z -> list Z -> list Z -> list T ->
             Z * list Z * list Z * list T * list T * list T * list Z * list Z * list T;
  (* QDLDL_solve(n, Lp, Li, Lx, Dinv, x), as called at qdldl_wrapper.h:60-61 *)
  q_solve : nat -> list Z -> list Z -> list T -> list T -> list T -> list T }.
Arguments q_etree {T}. Arguments q_factor {T}. Arguments q_solve {T}.

(* ---------- the memory QDLDL asks for ---------- *)
(* Ap has n+1 nondecreasing entries, Ai has all the row indices, none of them negative *)
Definition pattern_mem (n : nat) (Ap Ai : list Z) : bool :=
  (Z.of_nat n + 1 <=? len Ap) && (0 <=? ig Ap 0) &&
  forallb (fun j => ig Ap j <=? ig Ap (S j)) (seq 0 n) &&
  (ig Ap n <=? len Ai) &&
  forallb (fun j => forallb (fun p => 0 <=? ig Ai p) (col_positions Ap j)) (seq 0 n).

Definition etree_mem (n : nat) (Ap Ai work Lnz etree : list Z) : bool :=
  pattern_mem n Ap Ai && (Z.of_nat n <=? len work) && (Z.of_nat n <=? len Lnz) &&
  (Z.of_nat n <=? len etree).

Definition same_ints (a b : list Z) : bool := if list_eq_dec Z.eq_dec a b then true else false.

(* Lnz and etree are the outcome of a successful analysis of the pattern (Ap, Ai) *)
Definition analysed {T} (Q : Qdldl T) (n : nat) (Ap Ai work Lnz etree : list Z) : bool :=
  let '(r, _, Lnz', etree') := q_etree Q n Ap Ai work Lnz etree in
  (0 <=? r) && same_ints Lnz' Lnz && same_ints etree' etree.

(* the matrix is not empty, every array has the size QDLDL's header gives for it, and Lnz,
   etree describe the pattern of the matrix *)
Definition factor_mem {T} (Q : Qdldl T) (n : nat) (Ap Ai : list Z) (Ax : list T)
  (Lp Li : list Z) (Lx D Dinv : list T) (Lnz etree bwork iwork : list Z) (fwork : list T) : bool :=
  (1 <=? Z.of_nat n) && etree_mem n Ap Ai iwork Lnz etree && (ig Ap n <=? len Ax) &&
  (Z.of_nat n + 1 <=? len Lp) && (zsum (firstn n Lnz) <=? len Li) && (zsum (firstn n Lnz) <=? len Lx) &&
  (Z.of_nat n <=? len D) && (Z.of_nat n <=? len Dinv) &&
  (Z.of_nat n <=? len bwork) && (3 * Z.of_nat n <=? len iwork) && (Z.of_nat n <=? len fwork) &&
  analysed Q n Ap Ai iwork Lnz etree.

(* Lp, Li describe a matrix with n columns and row indices below n *)
Definition ccs_mem (n : nat) (Lp Li : list Z) : bool :=
  (Z.of_nat n + 1 <=? len Lp) && (0 <=? ig Lp 0) &&
  forallb (fun j => ig Lp j <=? ig Lp (S j)) (seq 0 n) &&
  (ig Lp n <=? len Li) && forallb (fun i => (0 <=? i) && (i <? Z.of_nat n)) Li.

Definition solve_mem {T} (n : nat) (Lp Li : list Z) (Lx Dinv x : list T) : bool :=
  ccs_mem n Lp Li && (ig Lp n <=? len Lx) && (Z.of_nat n <=? len Dinv) && (Z.of_nat n <=? len x).

(* ---------- std::vector ---------- *)
(* v.resize(k) with an int argument: a negative int becomes a size_type above max_size() and
   std::length_error is thrown; new elements are value-initialised.  Running out of memory
   (std::bad_alloc) is not modelled. *)
Definition resize {A} (z : A) (v : list A) (k : Z) : res (list A) :=
  if k <? 0 then Throw ELength
  else Ok (firstn (Z.to_nat k) v ++ repeat z (Z.to_nat k - length v)).

Section Wrapper.
  Context {T : Type} (O : Ops T) (Q : Qdldl T).

  (* the members, qdldl_wrapper.h:65-82 *)
  Record wrapper : Type := mkWrapper {
    w_nnz : Z; w_n : Z;
    w_etree : list Z; w_Lnz : list Z;
    w_Li : list Z; w_Lp : list Z; w_Lx : list T;
    w_D : list T; w_Dinv : list T;
    w_iwork : list Z; w_fwork : list T; w_bwork : list Z }.

  (* QdldlWrapper(int n, const int* Ap, const int* Ai), qdldl_wrapper.h:25-47; [None] is a null
     pointer, which QDLDL_etree dereferences unless n is 0 *)
  Definition QdldlWrapper_new (n : Z) (Ap Ai : option (list Z)) : res wrapper :=
    (n3 <- imul 3 n ;;
     iwork <- resize 0 [] n3 ;;
     bwork <- resize 0 [] n ;;
     fwork <- resize (o_zero O) [] n ;;
     etree <- resize 0 [] n ;;
     Lnz <- resize 0 [] n ;;
     A <- match Ap, Ai with
          | Some ap, Some ai =>
              ub_unless (etree_mem (Z.to_nat n) ap ai iwork Lnz etree) UBSize ;; Ok (ap, ai)
          | _, _ => ub_unless (n =? 0) UBNull ;; Ok ([0], [])
          end ;;
     let '(r, iwork, Lnz, etree) :=
       q_etree Q (Z.to_nat n) (fst A) (snd A) iwork Lnz etree in
     n1 <- iadd n 1 ;;
     Lp <- resize 0 [] n1 ;;
     Li <- resize 0 [] r ;;
     Lx <- resize (o_zero O) [] r ;;
     D <- resize (o_zero O) [] n ;;
     Dinv <- resize (o_zero O) [] n ;;
     Ok (mkWrapper r n etree Lnz Li Lp Lx D Dinv iwork fwork bwork))%res.

  (* Eigen::SparseMatrix<double>, column major, as QdldlWrapper::Factor sees it
     (qdldl_wrapper.h:52): outerIndexPtr(), innerIndexPtr(), valuePtr().  [sm_counts] is
     innerNonZeroPtr(): [None] in compressed form, otherwise the number of entries in use in
     each column. *)
  Record sparse : Type := mkSparse {
    sm_outer : list Z; sm_inner : list Z; sm_values : list T; sm_counts : option (list Z) }.

  (* Factor, qdldl_wrapper.h:49-56: the int result of QDLDL_factor is dropped, neither the size
     nor the form of A is checked *)
  Definition Qdldl_Factor (w : wrapper) (A : sparse) : res wrapper :=
    let n := Z.to_nat (w_n w) in
    (ub_unless (factor_mem Q n (sm_outer A) (sm_inner A) (sm_values A) (w_Lp w) (w_Li w) (w_Lx w)
                  (w_D w) (w_Dinv w) (w_Lnz w) (w_etree w) (w_bwork w) (w_iwork w) (w_fwork w))
       UBSize ;;
     let '(_, Lp, Li, Lx, D, Dinv, bwork, iwork, fwork) :=
       q_factor Q n (sm_outer A) (sm_inner A) (sm_values A) (w_Lp w) (w_Li w) (w_Lx w)
         (w_D w) (w_Dinv w) (w_Lnz w) (w_etree w) (w_bwork w) (w_iwork w) (w_fwork w) in
     Ok (mkWrapper (w_nnz w) (w_n w) (w_etree w) (w_Lnz w) Li Lp Lx D Dinv iwork fwork bwork))%res.

  (* Solve(Eigen::VectorXd* x), qdldl_wrapper.h:59-62: the new contents of x.  Neither the
     pointer nor the size of x is checked. *)
  Definition Qdldl_Solve (w : wrapper) (x : option (list T)) : res (list T) :=
    let n := Z.to_nat (w_n w) in
    match x with
    | None => UB UBNull
    | Some b =>
        (ub_unless (solve_mem n (w_Lp w) (w_Li w) (w_Lx w) (w_Dinv w) b) UBSize ;;
         Ok (q_solve Q n (w_Lp w) (w_Li w) (w_Lx w) (w_Dinv w) b))%res
    end.

  (* the calls a program makes on one object *)
  Inductive qcall : Type := QFactor (A : sparse) | QSolve (x : option (list T)).

  (* run a list of calls; returns the object and the vectors Solve produced, in order *)
  Fixpoint run_calls (w : wrapper) (cs : list qcall) : res (wrapper * list (list T)) :=
    match cs with
    | [] => Ok (w, [])
    | QFactor A :: cs' => (w' <- Qdldl_Factor w A ;; run_calls w' cs')%res
    | QSolve x :: cs' =>
        (y <- Qdldl_Solve w x ;; r <- run_calls w cs' ;; Ok (fst r, y :: snd r))%res
    end.
End Wrapper.
Arguments wrapper : clear implicits. Arguments sparse : clear implicits. Arguments qcall : clear implicits.
