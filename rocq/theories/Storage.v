(* The structs a caller passes to Solve and their constructors: FBstabDense::{ProblemData,
   ProblemDataRef, Variable, VariableRef}, FBstabMpc::{ProblemData, ProblemDataRef, Variable,
   VariableRef}, and the constructors taking the sizes as an Eigen::Vector4d. *)
From Verif Require Export Shared.
From Coq Require Import Floats.SpecFloat.
Local Open Scope res_scope.

(* the conversion of a double to int, as in a call f(s(0)) with f(int): truncation towards zero,
   undefined when the truncated value is not an int (and for inf and NaN) *)
Definition trunc_abs (m : positive) (e : Z) : Z :=
  if (0 <=? e)%Z then (Z.pos m * 2 ^ e)%Z else (Z.pos m / 2 ^ (- e))%Z.
Definition to_int (x : F64) : res Z :=
  match x with
  | S754_zero _ => Ok 0%Z
  | S754_finite s m e =>
      let z := if s then (- trunc_abs m e)%Z else trunc_abs m e in
      ub_unless (in_int z) UBOverflow ;; Ok z
  | _ => UB UBOverflow
  end.

Section Storage.
  Context {T : Type} (O : Ops T).

  (* Eigen::VectorXd::Zero(n); a negative n is undefined (an assertion in debug builds) *)
  Definition zeros (n : Z) : res (vec T) :=
    ub_unless (0 <=? n)%Z UBSize ;; Ok (vconst (Z.to_nat n) (o_zero O)).
  (* resize(r, c) of a default-constructed matrix or vector: contents indeterminate *)
  Definition raw_mat (r c : Z) (g : nat -> T) : res (mat T) :=
    ub_unless ((0 <=? r)%Z && (0 <=? c)%Z) UBSize ;;
    Ok (mkMat (Z.to_nat r) (Z.to_nat c) (tab (Z.to_nat r * Z.to_nat c) g)).
  Definition raw_vec (n : Z) (g : nat -> T) : res (vec T) :=
    ub_unless (0 <=? n)%Z UBSize ;; Ok (tab (Z.to_nat n) g).

  (* FBstabDense::ProblemData(nz,nl,nv), fbstab_dense.cc:62-69; [g k] are the indeterminate
     contents of the k-th member *)
  Definition DenseProblem_new (nz nl nv : Z) (g : nat -> nat -> T) : res (dense_qp T) :=
    H <- raw_mat nz nz (g 0%nat) ;; G <- raw_mat nl nz (g 1%nat) ;; A <- raw_mat nv nz (g 2%nat) ;;
    f <- raw_vec nz (g 3%nat) ;; h <- raw_vec nl (g 4%nat) ;; b <- raw_vec nv (g 5%nat) ;;
    Ok (mkDQP H f G h A b).

  (* FBstabDense::Variable(nz,nl,nv), fbstab_dense.cc:85-90 *)
  Definition DenseVariable_new (nz nl nv : Z) : res (var T) :=
    z <- zeros nz ;; l <- zeros nl ;; v <- zeros nv ;; y <- zeros nv ;; Ok (mkVar z l v y).

  (* FBstabDense::ProblemDataRef(H,f,G,h,A,b), fbstab_dense.cc:71-83: the arguments come in this
     order, the members are declared in the order H,G,A,f,h,b *)
  Definition DenseRef_new (H : mview) (f : span) (G : mview) (h : span) (A : mview) (b : span) : dense_view :=
    mkDV H f G h A b.
  (* VariableRef(z,l,v,y), fbstab_dense.cc:92-99 and fbstab_mpc.cc:48-52 *)
  Definition VariableRef_new (z l v y : span) : var_view := mkVV z l v y.

  (* FBstabMpc::Variable(N,nx,nu,nc), fbstab_mpc.cc:38-43: int arithmetic *)
  Definition MpcVariable_new (N nx nu nc : Z) : res (var T) :=
    N1 <- iadd N 1 ;; w <- iadd nx nu ;;
    a <- imul N1 w ;; z <- zeros a ;;
    a <- imul N1 nx ;; l <- zeros a ;;
    a <- imul N1 nc ;; v <- zeros a ;;
    y <- zeros a ;;
    Ok (mkVar z l v y).

  (* MapMatrixSequence(), matrix_sequence.h:91, 159-163 *)
  Definition mapseq_default : mapseq T := mkMap 0 1 1 0 None.
  (* FBstabMpc::ProblemDataRef(), fbstab_mpc.h:92 *)
  Definition MpcRef_default : mpc_ref T :=
    mkMR mapseq_default mapseq_default mapseq_default mapseq_default mapseq_default mapseq_default
         mapseq_default mapseq_default mapseq_default mapseq_default mapseq_default [].
  (* SetX0, fbstab_mpc.h:94-98 *)
  Definition SetX0 (p : mpc_ref T) (x0 : vec T) : mpc_ref T :=
    mkMR (m_Q p) (m_R p) (m_S p) (m_q p) (m_r p) (m_A p) (m_B p) (m_c p) (m_E p) (m_L p) (m_d p) x0.
  (* FBstabMpc::ProblemDataRef(Q,...,d,x0), fbstab_mpc.cc:18-36 *)
  Definition MpcRef_new (Q R S q r A B c E L d : mseq T) (x0 : vec T) : mpc_ref T :=
    mkMR (map_of_mseq Q) (map_of_mseq R) (map_of_mseq S) (map_of_mseq q) (map_of_mseq r)
         (map_of_mseq A) (map_of_mseq B) (map_of_mseq c) (map_of_mseq E) (map_of_mseq L)
         (map_of_mseq d) x0.
  (* FBstabMpc::ProblemData(), fbstab_mpc.h:68 *)
  Definition MpcOwn_default : mpc_own T :=
    mkMO mseq_default mseq_default mseq_default mseq_default mseq_default mseq_default
         mseq_default mseq_default mseq_default mseq_default mseq_default [].
End Storage.

(* FBstabMpc(Eigen::Vector4d) and Variable(Eigen::Vector4d), fbstab_mpc.cc:45-46, 91-92.  The
   order in which the four conversions are made does not matter. *)
Definition int_sizes (s0 s1 s2 s3 : F64) : res (Z * Z * Z * Z) :=
  a <- to_int s0 ;; b <- to_int s1 ;; c <- to_int s2 ;; d <- to_int s3 ;; Ok (a, b, c, d).
Definition FBstabMpc_new_vec (g : garbage F64) (s0 s1 s2 s3 : F64) : res (mpc_solver F64) :=
  n <- int_sizes s0 s1 s2 s3 ;;
  let '(N, nx, nu, nc) := n in FBstabMpc_new Fops g N nx nu nc.
Definition MpcVariable_new_vec (s0 s1 s2 s3 : F64) : res (var F64) :=
  n <- int_sizes s0 s1 s2 s3 ;;
  let '(N, nx, nu, nc) := n in MpcVariable_new Fops N nx nu nc.
