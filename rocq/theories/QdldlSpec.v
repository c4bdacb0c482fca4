(* What a user of QdldlWrapper means by a sparsity pattern, the matrix of a sparse array and
   quasi-definiteness; and what QDLDL promises (the hypotheses of PropsQdldl.v). *)
From Verif Require Export Qdldl RSum LALaws.
Local Open Scope Z_scope.

(* every column has an entry, no entry is below the diagonal *)
Definition upper_pattern (n : nat) (Ap Ai : list Z) : Prop :=
  forall j, (j < n)%nat -> ig Ap j < ig Ap (S j) /\
    forall p, In p (col_positions Ap j) -> ig Ai p <= Z.of_nat j.
(* no entry is stored twice *)
Definition no_duplicates (n : nat) (Ap Ai : list Z) : Prop :=
  forall j, (j < n)%nat -> NoDup (map (ig Ai) (col_positions Ap j)).

(* the sum of the values stored for row i at the given positions *)
Definition stored (Ai : list Z) (Ax : list R) (i : nat) (ps : list nat) : R :=
  fold_right Rplus 0%R (map (fun p => if ig Ai p =? Z.of_nat i then rg Ax p else 0%R) ps).
Definition entry (Ap Ai : list Z) (Ax : list R) (i j : nat) : R := stored Ai Ax i (col_positions Ap j).
(* the symmetric matrix whose upper triangle is stored *)
Definition upper_sym (e : nat -> nat -> R) (i j : nat) : R := if Nat.leb i j then e i j else e j i.

(* the positions in use in column j of an Eigen sparse matrix, compressed or not, and the
   symmetric matrix (selfadjointView<Upper>) it stands for *)
Definition sm_positions {T} (A : sparse T) (j : nat) : list nat :=
  match sm_counts A with
  | None => col_positions (sm_outer A) j
  | Some c => seq (Z.to_nat (ig (sm_outer A) j)) (Z.to_nat (ig c j))
  end.
Definition sm_matrix (A : sparse R) : nat -> nat -> R :=
  upper_sym (fun i j => stored (sm_inner A) (sm_values A) i (sm_positions A j)).

(* quasi-definite: positive definite on the rows and columns in P, negative definite on the others *)
Definition quasidefinite (n : nat) (K : nat -> nat -> R) : Prop :=
  exists P : nat -> bool,
    forall x, (exists i, (i < n)%nat /\ x i <> 0%R) ->
      ((forall i, (i < n)%nat -> P i = false -> x i = 0%R) -> 0 < qform n K x)%R /\
      ((forall i, (i < n)%nat -> P i = true -> x i = 0%R) -> qform n K x < 0)%R.

(* every leading block is invertible: what an LDL' factorization without pivoting needs *)
Definition factorizable (n : nat) (K : nat -> nat -> R) : Prop :=
  forall m, (m <= n)%nat -> nonsingular m K.

(* ---------- QDLDL's promises, in any arithmetic ---------- *)
Record QdldlOk {T} (Q : Qdldl T) : Prop := {
  (* QDLDL_etree writes within its arrays; it returns -1 on an empty column or an entry below the
     diagonal; otherwise Lnz has the column counts of L, and it returns their sum or, if that is
     no int, -2 *)
  qk_etree : forall n Ap Ai work Lnz etree, etree_mem n Ap Ai work Lnz etree = true ->
    let '(r, work', Lnz', etree') := q_etree Q n Ap Ai work Lnz etree in
    length work' = length work /\ length Lnz' = length Lnz /\ length etree' = length etree /\
    (~ upper_pattern n Ap Ai -> r = -1) /\
    (upper_pattern n Ap Ai ->
       (forall i, (i < n)%nat -> 0 <= ig Lnz' i <= Z.of_nat n - 1 - Z.of_nat i) /\
       r = if zsum (firstn n Lnz') <=? int_max then zsum (firstn n Lnz') else -2);
  (* what it returns does not depend on what was in the arrays *)
  qk_etree_fresh : forall n Ap Ai work1 work2 Lnz1 Lnz2 etree1 etree2,
    etree_mem n Ap Ai work1 Lnz1 etree1 = true -> etree_mem n Ap Ai work2 Lnz2 etree2 = true ->
    length Lnz1 = n -> length Lnz2 = n -> length etree1 = n -> length etree2 = n ->
    let '(r1, _, L1, e1) := q_etree Q n Ap Ai work1 Lnz1 etree1 in
    let '(r2, _, L2, e2) := q_etree Q n Ap Ai work2 Lnz2 etree2 in
    r1 = r2 /\ (0 <= r1 -> L1 = L2 /\ e1 = e2);
  (* QDLDL_factor writes within its arrays and leaves a well-formed factor behind, even if it fails *)
  qk_factor : forall n Ap Ai Ax Lp Li Lx D Dinv Lnz etree bwork iwork fwork,
    factor_mem Q n Ap Ai Ax Lp Li Lx D Dinv Lnz etree bwork iwork fwork = true ->
    let '(_, Lp', Li', Lx', D', Dinv', bwork', iwork', fwork') :=
      q_factor Q n Ap Ai Ax Lp Li Lx D Dinv Lnz etree bwork iwork fwork in
    length Lp' = length Lp /\ length Li' = length Li /\ length Lx' = length Lx /\
    length D' = length D /\ length Dinv' = length Dinv /\ length bwork' = length bwork /\
    length iwork' = length iwork /\ length fwork' = length fwork /\
    (ccs_mem n Lp Li = true -> ccs_mem n Lp' Li' = true);
  (* its outcome does not depend on what was in the arrays *)
  qk_factor_fresh : forall n Ap Ai Ax Lnz etree
      Lp1 Li1 Lx1 D1 Dinv1 bwork1 iwork1 fwork1 Lp2 Li2 Lx2 D2 Dinv2 bwork2 iwork2 fwork2,
    factor_mem Q n Ap Ai Ax Lp1 Li1 Lx1 D1 Dinv1 Lnz etree bwork1 iwork1 fwork1 = true ->
    factor_mem Q n Ap Ai Ax Lp2 Li2 Lx2 D2 Dinv2 Lnz etree bwork2 iwork2 fwork2 = true ->
    len Lnz = Z.of_nat n -> len Lp1 = Z.of_nat n + 1 -> len Lp2 = Z.of_nat n + 1 ->
    len Li1 = zsum Lnz -> len Li2 = zsum Lnz -> len Lx1 = zsum Lnz -> len Lx2 = zsum Lnz ->
    len D1 = Z.of_nat n -> len D2 = Z.of_nat n -> len Dinv1 = Z.of_nat n -> len Dinv2 = Z.of_nat n ->
    let '(r1, Lp1', Li1', Lx1', D1', Dinv1', _, _, _) :=
      q_factor Q n Ap Ai Ax Lp1 Li1 Lx1 D1 Dinv1 Lnz etree bwork1 iwork1 fwork1 in
    let '(r2, Lp2', Li2', Lx2', D2', Dinv2', _, _, _) :=
      q_factor Q n Ap Ai Ax Lp2 Li2 Lx2 D2 Dinv2 Lnz etree bwork2 iwork2 fwork2 in
    r1 = r2 /\ (0 <= r1 -> Lp1' = Lp2' /\ Li1' = Li2' /\ Lx1' = Lx2' /\ D1' = D2' /\ Dinv1' = Dinv2');
  (* QDLDL_solve overwrites the first n entries of x *)
  qk_solve : forall n Lp Li Lx Dinv x, solve_mem n Lp Li Lx Dinv x = true ->
    length (q_solve Q n Lp Li Lx Dinv x) = length x /\
    skipn n (q_solve Q n Lp Li Lx Dinv x) = skipn n x }.

(* ---------- and in exact arithmetic ---------- *)
Record QdldlExact (Q : Qdldl R) : Prop := {
  (* a factorization that reports success (a result that is not negative) lets QDLDL_solve solve
     the symmetric system *)
  qe_solve : forall n Ap Ai Ax Lp Li Lx D Dinv Lnz etree bwork iwork fwork,
    factor_mem Q n Ap Ai Ax Lp Li Lx D Dinv Lnz etree bwork iwork fwork = true ->
    no_duplicates n Ap Ai ->
    let '(r, Lp', Li', Lx', _, Dinv', _, _, _) :=
      q_factor Q n Ap Ai Ax Lp Li Lx D Dinv Lnz etree bwork iwork fwork in
    0 <= r -> forall b, (n <= length b)%nat -> forall i, (i < n)%nat ->
      rsum n (fun j => upper_sym (entry Ap Ai Ax) i j * rg (q_solve Q n Lp' Li' Lx' Dinv' b) j)%R = rg b i;
  (* it succeeds whenever L D L' exists with nonzero pivots *)
  qe_factor : forall n Ap Ai Ax Lp Li Lx D Dinv Lnz etree bwork iwork fwork,
    factor_mem Q n Ap Ai Ax Lp Li Lx D Dinv Lnz etree bwork iwork fwork = true ->
    no_duplicates n Ap Ai -> factorizable n (upper_sym (entry Ap Ai Ax)) ->
    0 <= fst (fst (fst (fst (fst (fst (fst (fst
      (q_factor Q n Ap Ai Ax Lp Li Lx D Dinv Lnz etree bwork iwork fwork))))))));
  (* with an empty L and a zero Dinv, QDLDL_solve multiplies by zero *)
  qe_zero : forall n Lp Li Lx Dinv b, solve_mem n Lp Li Lx Dinv b = true ->
    (forall i, (i <= n)%nat -> ig Lp i = 0) -> (forall i, (i < n)%nat -> rg Dinv i = 0%R) ->
    forall i, (i < n)%nat -> rg (q_solve Q n Lp Li Lx Dinv b) i = 0%R }.

Ltac bools := repeat match goal with H : andb _ _ = true |- _ => apply Bool.andb_true_iff in H; destruct H end.
Lemma etree_mem_inv n Ap Ai work Lnz etree : etree_mem n Ap Ai work Lnz etree = true ->
  pattern_mem n Ap Ai = true /\ (n <= length work)%nat /\ (n <= length Lnz)%nat /\ (n <= length etree)%nat.
Proof. unfold etree_mem, len. intro H. bools. repeat split; try assumption; lia. Qed.
Lemma etree_mem_intro n Ap Ai work Lnz etree :
  pattern_mem n Ap Ai = true -> (n <= length work)%nat -> (n <= length Lnz)%nat -> (n <= length etree)%nat ->
  etree_mem n Ap Ai work Lnz etree = true.
Proof. unfold etree_mem, len. intros H ? ? ?. rewrite H. rewrite !Bool.andb_true_iff. repeat split; lia. Qed.
Lemma factor_mem_inv {T} (Q : Qdldl T) n Ap Ai Ax Lp Li Lx D Dinv Lnz etree bwork iwork fwork :
  factor_mem Q n Ap Ai Ax Lp Li Lx D Dinv Lnz etree bwork iwork fwork = true ->
  (1 <= n)%nat /\ etree_mem n Ap Ai iwork Lnz etree = true /\ ig Ap n <= len Ax /\
  (n + 1 <= length Lp)%nat /\ zsum (firstn n Lnz) <= len Li /\ zsum (firstn n Lnz) <= len Lx /\
  (n <= length D)%nat /\ (n <= length Dinv)%nat /\ (n <= length bwork)%nat /\ (3 * n <= length iwork)%nat /\
  (n <= length fwork)%nat /\ analysed Q n Ap Ai iwork Lnz etree = true.
Proof. unfold factor_mem, len. intro H. bools. repeat split; try assumption; lia. Qed.
Lemma factor_mem_intro {T} (Q : Qdldl T) n Ap Ai Ax Lp Li Lx D Dinv Lnz etree bwork iwork fwork :
  (1 <= n)%nat -> etree_mem n Ap Ai iwork Lnz etree = true -> ig Ap n <= len Ax ->
  (n + 1 <= length Lp)%nat -> zsum (firstn n Lnz) <= len Li -> zsum (firstn n Lnz) <= len Lx ->
  (n <= length D)%nat -> (n <= length Dinv)%nat -> (n <= length bwork)%nat -> (3 * n <= length iwork)%nat ->
  (n <= length fwork)%nat -> analysed Q n Ap Ai iwork Lnz etree = true ->
  factor_mem Q n Ap Ai Ax Lp Li Lx D Dinv Lnz etree bwork iwork fwork = true.
Proof.
  unfold factor_mem, len. intros. rewrite !Bool.andb_true_iff. repeat split; try assumption; lia.
Qed.
Lemma solve_mem_inv {T} n Lp Li (Lx Dinv x : list T) : solve_mem n Lp Li Lx Dinv x = true ->
  ccs_mem n Lp Li = true /\ ig Lp n <= len Lx /\ (n <= length Dinv)%nat /\ (n <= length x)%nat.
Proof. unfold solve_mem, len. intro H. bools. repeat split; try assumption; lia. Qed.
Lemma same_ints_ok a b : same_ints a b = true <-> a = b.
Proof. unfold same_ints. destruct (list_eq_dec Z.eq_dec a b); split; congruence. Qed.
