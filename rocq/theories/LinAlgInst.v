(* A concrete implementation of the oracle: textbook row Cholesky, LDL' without pivoting and
   substitutions, generic in the arithmetic.  Used (a) over R to show that the laws assumed
   of Eigen's factorisations are satisfiable, (b) over binary64 to run the model.
   It models no code of /repo: it stands for Eigen 3.4 Eigen::LLT, Eigen::LDLT, TriangularView. *)
From Verif Require Export LinAlg.

Section Inst.
  Context {T : Type} (O : Ops T).
  Notation vg := (vget O).

  (* forward substitution; row i of [rows] has the entries L(i,0..i) *)
  Fixpoint fsub (rows : list (vec T)) (b x : vec T) : vec T :=
    match rows with
    | [] => x
    | r :: rows' =>
        let i := length x in
        fsub rows' b
          (x ++ [o_div O (o_sub O (vg b i) (o_dot O (firstn i r) x)) (vg r i)])
    end.

  (* back substitution with L' ; x already holds entries n..end *)
  Fixpoint bsub (L : nat -> nat -> T) (b : vec T) (n : nat) (x : vec T) : vec T :=
    match n with
    | 0 => x
    | S k =>
        bsub L b k
          (o_div O (o_sub O (vg b k) (o_dot O (tab (length x) (fun t => L (S k + t) k)) x)) (L k k)
           :: x)
    end.

  Fixpoint chol_rows (K : nat -> nat -> T) (n i : nat) (rows : list (vec T))
    : option (list (vec T)) :=
    match n with
    | 0 => Some rows
    | S n' =>
        let l := fsub rows (tab i (fun j => K i j)) [] in
        let p := o_sub O (K i i) (o_dot O l l) in
        if o_ltb O (o_zero O) p then chol_rows K n' (S i) (rows ++ [l ++ [o_sqrt O p]]) else None
    end.

  Fixpoint ldl_rows (K : nat -> nat -> T) (n i : nat) (rows : list (vec T)) (d : vec T)
    : option (list (vec T) * vec T) :=
    match n with
    | 0 => Some (rows, d)
    | S n' =>
        let c := fsub rows (tab i (fun j => K i j)) [] in
        let l := vquot O c d in
        let p := o_sub O (K i i) (o_dot O c l) in
        if o_eqb O p (o_zero O) then None
        else ldl_rows K n' (S i) (rows ++ [l ++ [o_one O]]) (d ++ [p])
    end.

  Definition rows_mat (n : nat) (rows : list (vec T)) : mat T :=
    mtab n n (fun i j => vg (nth i rows []) j).

  Definition inst_llt (K : mat T) : option (mat T) :=
    match chol_rows (mget O K) (mr K) 0 [] with
    | Some rows => Some (rows_mat (mr K) rows)
    | None => None
    end.
  Definition inst_lsolve (L : mat T) (b : vec T) : vec T :=
    fsub (tab (mr L) (mrow O L)) b [].
  Definition inst_ltsolve (L : mat T) (b : vec T) : vec T := bsub (mget O L) b (mr L) [].
  Definition inst_ldlt_ok (K : mat T) : bool :=
    match ldl_rows (mget O K) (mr K) 0 [] [] with Some _ => true | None => false end.
  Definition inst_ldlt_solve (K : mat T) (b : vec T) : vec T :=
    match ldl_rows (mget O K) (mr K) 0 [] [] with
    | Some (rows, d) =>
        let y := fsub rows b [] in
        bsub (fun i j => vg (nth i rows []) j) (vquot O y d) (mr K) []
    | None => b
    end.
  Definition inst_la : LinAlg T :=
    mkLinAlg inst_llt inst_ldlt_ok inst_ldlt_solve inst_lsolve inst_ltsolve.
End Inst.
