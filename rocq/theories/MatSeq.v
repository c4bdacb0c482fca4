(* tools/matrix_sequence.h *)
From Verif Require Export LinAlg.
Local Open Scope res_scope.

(* MatrixSequence (owning), matrix_sequence.h:18-74 *)
Record mseq (T : Type) : Type := mkMseq {
  ms_N : Z; ms_nr : Z; ms_nc : Z; ms_nel : Z; ms_data : list T }.
Arguments mkMseq {T}. Arguments ms_N {T}. Arguments ms_nr {T}. Arguments ms_nc {T}.
Arguments ms_nel {T}. Arguments ms_data {T}.

(* MapMatrixSequence (view), matrix_sequence.h:88-164.  [mp_mem] is the memory the pointer
   refers to (None = nullptr); reading past its end is undefined. *)
Record mapseq (T : Type) : Type := mkMap {
  mp_N : Z; mp_nr : Z; mp_nc : Z; mp_nel : Z; mp_mem : option (list T) }.
Arguments mkMap {T}. Arguments mp_N {T}. Arguments mp_nr {T}. Arguments mp_nc {T}.
Arguments mp_nel {T}. Arguments mp_mem {T}.

Section MatSeq.
  Context {T : Type} (O : Ops T).
  Local Open Scope Z_scope.

  (* default constructor, matrix_sequence.h:21 and 69-73 *)
  Definition mseq_default : mseq T := mkMseq 0 1 1 0 [].

  (* constructor, matrix_sequence.h:30-43; std::vector::resize value-initialises.
     N_*nr_*nc_ is int arithmetic. *)
  Definition mseq_new (len nrows ncols : Z) : res (mseq T) :=
    throw_unless (negb (len <? 0)) ESeqSize ;;
    throw_unless (negb ((nrows <=? 0) || (ncols <=? 0))) ESeqSize ;;
    p <- imul len nrows ;;
    nel <- imul p ncols ;;
    Ok (mkMseq len nrows ncols nel (repeat (o_zero O) (Z.to_nat nel))).

  (* the nr x nc column-major view at address base + off; the offset is int arithmetic *)
  Definition view (mem : list T) (k nr nc : Z) : res (mat T) :=
    p <- imul k nr ;;
    off <- imul p nc ;;
    ub_unless (Z.to_nat off + Z.to_nat nr * Z.to_nat nc <=? length mem)%nat UBSize ;;
    Ok (mkMat (Z.to_nat nr) (Z.to_nat nc)
              (firstn (Z.to_nat nr * Z.to_nat nc) (skipn (Z.to_nat off) mem))).

  (* operator() const, matrix_sequence.h:54-59 *)
  Definition mseq_at (s : mseq T) (k : Z) : res (mat T) :=
    throw_unless (negb ((k <? 0) || (ms_N s <=? k))) EIndex ;;
    view (ms_data s) k (ms_nr s) (ms_nc s).

  (* assigning seq(k)(i,j) = x through the mutable Map of operator(), matrix_sequence.h:46-51 *)
  Definition list_set (l : list T) (n : nat) (x : T) : list T :=
    firstn n l ++ x :: skipn (S n) l.
  Definition mseq_write (s : mseq T) (k i j : Z) (x : T) : res (mseq T) :=
    throw_unless (negb ((k <? 0) || (ms_N s <=? k))) EIndex ;;
    p <- imul k (ms_nr s) ;;
    off <- imul p (ms_nc s) ;;
    ub_unless ((0 <=? i) && (i <? ms_nr s) && (0 <=? j) && (j <? ms_nc s)) UBSize ;;
    let a := off + j * ms_nr s + i in
    ub_unless (a <? Z.of_nat (length (ms_data s))) UBSize ;;
    Ok (mkMseq (ms_N s) (ms_nr s) (ms_nc s) (ms_nel s) (list_set (ms_data s) (Z.to_nat a) x)).

  (* constructor on raw memory, matrix_sequence.h:103-121 *)
  Definition mapseq_new (mem : option (list T)) (len nrows ncols : Z) : res (mapseq T) :=
    throw_unless (negb (len <=? 0)) ESeqSize ;;
    throw_unless (negb ((nrows <=? 0) || (ncols <=? 0))) ESeqSize ;;
    throw_unless (match mem with None => false | Some _ => true end) ESeqSize ;;
    p <- imul len nrows ;;
    nel <- imul p ncols ;;
    Ok (mkMap len nrows ncols nel mem).

  (* conversion from an owning sequence, matrix_sequence.h:129-134.  The product was already
     computed by the source object, so it does not overflow.  The pointer of a source without
     elements (never indexed unless it was moved from) is not distinguished here; SeqHeap.v does. *)
  Definition map_of_mseq (s : mseq T) : mapseq T :=
    mkMap (ms_N s) (ms_nr s) (ms_nc s) (ms_N s * ms_nr s * ms_nc s) (Some (ms_data s)).

  (* operator() const, matrix_sequence.h:140-149 *)
  Definition mapseq_at (s : mapseq T) (k : Z) : res (mat T) :=
    throw_unless (negb ((k <? 0) || (mp_N s <=? k))) EIndex ;;
    match mp_mem s with
    | None => Throw ENullSeq
    | Some mem => view mem k (mp_nr s) (mp_nc s)
    end.
End MatSeq.
