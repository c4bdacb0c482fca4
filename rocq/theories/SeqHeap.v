(* Copying, moving, assigning and destroying MatrixSequence and MapMatrixSequence objects
   (tools/matrix_sequence.h:20 and 90, tools/copyable_macros.h:22-26: all four special members
   are defaulted, so they act member by member).  The members that matter are the four ints, the
   std::vector<double> of the owning class and the raw pointer of the view.

   Objects have names (numbers).  Memory is a set of buffers; a freed buffer is never handed out
   again (reading it is undefined behaviour either way).  An empty vector that never allocated has
   data() = nullptr.  Self-move-assignment, which leaves std::vector unspecified, is left out. *)
From Verif Require Export MatSeq.
Local Open Scope res_scope.

Section Heap.
  Context {T : Type} (O : Ops T).

  (* MatrixSequence, matrix_sequence.h:69-73; sq_ptr is the buffer of data_ *)
  Record sobj : Type := mkSq { sq_N : Z; sq_nr : Z; sq_nc : Z; sq_nel : Z; sq_ptr : option nat }.
  (* MapMatrixSequence, matrix_sequence.h:159-163 *)
  Record mobj : Type := mkMq { mq_N : Z; mq_nr : Z; mq_nc : Z; mq_nel : Z; mq_ptr : option nat }.
  Record hst : Type := mkH {
    h_buf : nat -> option (list T);       (* allocated buffers *)
    h_next : nat;                         (* buffers from here on were never allocated *)
    h_seq : nat -> option sobj;           (* live MatrixSequence objects *)
    h_map : nat -> option mobj }.         (* live MapMatrixSequence objects *)

  Definition setf {A} (f : nat -> option A) (n : nat) (a : option A) : nat -> option A :=
    fun m => if (m =? n)%nat then a else f m.
  Definition heap_init : hst := mkH (fun _ => None) 0%nat (fun _ => None) (fun _ => None).

  (* using an object that does not exist (or constructing one twice) is undefined *)
  Definition live {A} (f : nat -> option A) (n : nat) : res A :=
    match f n with Some a => Ok a | None => UB UBDangling end.
  Definition unused {A} (f : nat -> option A) (n : nat) : res unit :=
    match f n with Some _ => UB UBDangling | None => Ok tt end.

  (* the elements of data_ *)
  Definition contents (st : hst) (o : sobj) : res (list T) :=
    match sq_ptr o with None => Ok [] | Some b => live (h_buf st) b end.
  Definition value_of (st : hst) (o : sobj) : res (mseq T) :=
    d <- contents st o ;; Ok (mkMseq (sq_N o) (sq_nr o) (sq_nc o) (sq_nel o) d).

  (* a vector with these elements: nothing is allocated for none *)
  Definition alloc (st : hst) (d : list T) : hst * option nat :=
    match d with
    | [] => (st, None)
    | _ => (mkH (setf (h_buf st) (h_next st) (Some d)) (S (h_next st)) (h_seq st) (h_map st),
            Some (h_next st))
    end.
  Definition free (st : hst) (p : option nat) : hst :=
    match p with
    | None => st
    | Some b => mkH (setf (h_buf st) b None) (h_next st) (h_seq st) (h_map st)
    end.
  Definition put_seq (st : hst) (x : nat) (o : option sobj) : hst :=
    mkH (h_buf st) (h_next st) (setf (h_seq st) x o) (h_map st).
  Definition put_map (st : hst) (m : nat) (o : option mobj) : hst :=
    mkH (h_buf st) (h_next st) (h_seq st) (setf (h_map st) m o).
  Definition put_buf (st : hst) (p : option nat) (d : list T) : hst :=
    match p with
    | None => st
    | Some b => mkH (setf (h_buf st) b (Some d)) (h_next st) (h_seq st) (h_map st)
    end.

  Inductive op : Type :=
  | SeqDefault (x : nat)                       (* MatrixSequence x; *)
  | SeqNew (x : nat) (len nr nc : Z)           (* MatrixSequence x(len,nr,nc); *)
  | SeqCopy (x y : nat)                        (* MatrixSequence x(y); *)
  | SeqAssign (reuse : bool) (x y : nat)       (* x = y; *)
  | SeqMove (x y : nat)                        (* MatrixSequence x(std::move(y)); *)
  | SeqMoveAssign (x y : nat)                  (* x = std::move(y); *)
  | SeqWrite (x : nat) (k i j : Z) (a : T)     (* x(k)(i,j) = a; *)
  | SeqDrop (x : nat)                          (* end of x's lifetime *)
  | MapDefault (m : nat)                       (* MapMatrixSequence m; *)
  | MapOf (m x : nat)                          (* MapMatrixSequence m(x); *)
  | MapCopy (m w : nat)                        (* MapMatrixSequence m(w); also when moved *)
  | MapAssign (m w : nat)                      (* m = w; also when moved *)
  | MapDrop (m : nat).

  (* One statement.  [reuse]: std::vector's operator= may keep the target's buffer (when it is
     large enough; the choice is the library's) or allocate a new one and free the old. *)
  Definition exec (c : op) (st : hst) : res hst :=
    match c with
    | SeqDefault x =>
        unused (h_seq st) x ;; Ok (put_seq st x (Some (mkSq 0 1 1 0 None)))
    | SeqNew x len nr nc =>                    (* matrix_sequence.h:30-43 *)
        unused (h_seq st) x ;;
        s <- mseq_new O len nr nc ;;
        let '(st, p) := alloc st (ms_data s) in
        Ok (put_seq st x (Some (mkSq (ms_N s) (ms_nr s) (ms_nc s) (ms_nel s) p)))
    | SeqCopy x y =>
        unused (h_seq st) x ;;
        o <- live (h_seq st) y ;;
        d <- contents st o ;;
        let '(st, p) := alloc st d in
        Ok (put_seq st x (Some (mkSq (sq_N o) (sq_nr o) (sq_nc o) (sq_nel o) p)))
    | SeqAssign reuse x y =>
        t <- live (h_seq st) x ;;
        o <- live (h_seq st) y ;;
        d <- contents st o ;;
        if (x =? y)%nat then Ok st
        else match sq_ptr t, reuse with
             | Some b, true =>
                 Ok (put_seq (put_buf st (Some b) d) x
                       (Some (mkSq (sq_N o) (sq_nr o) (sq_nc o) (sq_nel o) (Some b))))
             | p, _ =>
                 let '(st, p') := alloc (free st p) d in
                 Ok (put_seq st x (Some (mkSq (sq_N o) (sq_nr o) (sq_nc o) (sq_nel o) p')))
             end
    | SeqMove x y =>
        unused (h_seq st) x ;;
        o <- live (h_seq st) y ;;
        Ok (put_seq (put_seq st x (Some o)) y
              (Some (mkSq (sq_N o) (sq_nr o) (sq_nc o) (sq_nel o) None)))
    | SeqMoveAssign x y =>
        t <- live (h_seq st) x ;;
        o <- live (h_seq st) y ;;
        ub_unless (negb (x =? y)%nat) UBDangling ;;
        Ok (put_seq (put_seq (free st (sq_ptr t)) x (Some o)) y
              (Some (mkSq (sq_N o) (sq_nr o) (sq_nc o) (sq_nel o) None)))
    | SeqWrite x k i j a =>                    (* matrix_sequence.h:46-51 *)
        o <- live (h_seq st) x ;;
        s <- value_of st o ;;
        s' <- mseq_write s k i j a ;;
        Ok (put_buf st (sq_ptr o) (ms_data s'))
    | SeqDrop x =>
        o <- live (h_seq st) x ;;
        Ok (put_seq (free st (sq_ptr o)) x None)
    | MapDefault m =>
        unused (h_map st) m ;; Ok (put_map st m (Some (mkMq 0 1 1 0 None)))
    | MapOf m x =>                             (* matrix_sequence.h:129-134 *)
        unused (h_map st) m ;;
        o <- live (h_seq st) x ;;
        Ok (put_map st m (Some (mkMq (sq_N o) (sq_nr o) (sq_nc o)
                                      (sq_N o * sq_nr o * sq_nc o) (sq_ptr o))))
    | MapCopy m w =>
        unused (h_map st) m ;;
        o <- live (h_map st) w ;;
        Ok (put_map st m (Some o))
    | MapAssign m w =>
        _ <- live (h_map st) m ;;
        o <- live (h_map st) w ;;
        Ok (put_map st m (Some o))
    | MapDrop m =>
        _ <- live (h_map st) m ;; Ok (put_map st m None)
    end.

  (* a program; an exception (which leaves the objects as they were) is caught by the caller *)
  Fixpoint run (cs : list op) (st : hst) : res hst :=
    match cs with
    | [] => Ok st
    | c :: cs' => match exec c st with
                  | Ok st' => run cs' st'
                  | Throw _ => run cs' st
                  | UB u => UB u
                  end
    end.

  (* x(k) and m(k), matrix_sequence.h:54-59 and 140-149 *)
  Definition seq_at (st : hst) (x : nat) (k : Z) : res (mat T) :=
    o <- live (h_seq st) x ;;
    s <- value_of st o ;;
    mseq_at s k.
  Definition map_at (st : hst) (m : nat) (k : Z) : res (mat T) :=
    o <- live (h_map st) m ;;
    match mq_ptr o with
    | None => mapseq_at (mkMap (mq_N o) (mq_nr o) (mq_nc o) (mq_nel o) None) k
    | Some b =>
        match h_buf st b with
        | Some d => mapseq_at (mkMap (mq_N o) (mq_nr o) (mq_nc o) (mq_nel o) (Some d)) k
        | None =>                              (* freed memory *)
            throw_unless (negb ((k <? 0)%Z || (mq_N o <=? k)%Z)) EIndex ;; UB UBDangling
        end
    end.
  (* length(), rows(), cols(), size() of both classes *)
  Definition seq_dims (st : hst) (x : nat) : res (Z * Z * Z * Z) :=
    o <- live (h_seq st) x ;; Ok (sq_N o, sq_nr o, sq_nc o, sq_nel o).
  Definition map_dims (st : hst) (m : nat) : res (Z * Z * Z * Z) :=
    o <- live (h_map st) m ;; Ok (mq_N o, mq_nr o, mq_nc o, mq_nel o).
End Heap.
