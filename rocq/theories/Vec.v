(* Eigen vectors and matrices.  VectorXd = list; MatrixXd = rows, cols, column-major list
   (Eigen's default storage, stated also in tools/matrix_sequence.h:81-83). *)
From Verif Require Export Outcome.

Definition tab {A} (n : nat) (f : nat -> A) : list A := map f (seq 0 n).

Lemma tab_length {A} n (f : nat -> A) : length (tab n f) = n.
Proof. unfold tab. rewrite map_length, seq_length. reflexivity. Qed.

Lemma tab_nth {A} n (f : nat -> A) i d : i < n -> nth i (tab n f) d = f i.
Proof.
  intro H. unfold tab.
  rewrite nth_indep with (d' := f 0) by (rewrite map_length, seq_length; exact H).
  rewrite map_nth, seq_nth by exact H. reflexivity.
Qed.

Lemma tab_ext {A} n (f g : nat -> A) : (forall i, i < n -> f i = g i) -> tab n f = tab n g.
Proof.
  intro H. unfold tab. apply map_ext_in. intros i Hi. apply in_seq in Hi. apply H. lia.
Qed.

Lemma list_ext {A} (d : A) (u v : list A) :
  length u = length v -> (forall i, i < length u -> nth i u d = nth i v d) -> u = v.
Proof.
  revert v. induction u as [|x u IH]; intros [|y v] L H; try discriminate; auto.
  f_equal.
  - apply (H 0). simpl; lia.
  - apply IH; [simpl in L; lia|]. intros i Hi. apply (H (S i)). simpl; lia.
Qed.

Lemma tab_nth_self {A} (d : A) (u : list A) : tab (length u) (fun i => nth i u d) = u.
Proof.
  apply list_ext with (d := d); [apply tab_length|].
  intros i Hi. rewrite tab_length in Hi. rewrite (tab_nth _ (fun k => nth k u d)) by exact Hi. reflexivity.
Qed.

Section Vec.
  Context {T : Type} (O : Ops T).

  Definition vec : Type := list T.

  (* x(i) *)
  Definition vget (v : vec) (i : nat) : T := nth i v (o_zero O).
  (* setConstant / fill *)
  Definition vconst (n : nat) (a : T) : vec := tab n (fun _ => a).
  (* y += a * x *)
  Definition vaxpy (a : T) (x y : vec) : vec :=
    tab (length y) (fun i => o_add O (vget y i) (o_mul O a (vget x i))).
  (* x *= a *)
  Definition vscale (a : T) (x : vec) : vec := tab (length x) (fun i => o_mul O (vget x i) a).
  (* y + x, y - x *)
  Definition vadd (y x : vec) : vec := tab (length y) (fun i => o_add O (vget y i) (vget x i)).
  Definition vsub (y x : vec) : vec := tab (length y) (fun i => o_sub O (vget y i) (vget x i)).
  (* -x *)
  Definition vopp (x : vec) : vec := tab (length x) (fun i => o_opp O (vget x i)).
  (* cwiseQuotient *)
  Definition vquot (x y : vec) : vec := tab (length x) (fun i => o_div O (vget x i) (vget y i)).
  (* segment(s, n) *)
  Definition vseg (v : vec) (s n : nat) : vec := tab n (fun i => vget v (s + i)).
  (* squaredNorm, norm, dot *)
  Definition vsqnorm (v : vec) : T := o_dot O v v.
  Definition vnorm (v : vec) : T := o_sqrt O (vsqnorm v).
  Definition vdot (u v : vec) : T := o_dot O u v.
  (* lpNorm<Infinity>: 0 for the empty vector, cwiseAbs().maxCoeff() otherwise *)
  Definition vinf (v : vec) : T :=
    match v with [] => o_zero O | _ => o_maxc O (map (o_abs O) v) end.

  Record mat : Type := mkMat { mr : nat; mc : nat; me : list T }.

  (* M(i,j), column major *)
  Definition mget (M : mat) (i j : nat) : T := vget (me M) (j * mr M + i).
  Definition mtab (r c : nat) (f : nat -> nat -> T) : mat :=
    mkMat r c (tab (r * c) (fun k => f (k mod r) (k / r))).
  Definition mrow (M : mat) (i : nat) : vec := tab (mc M) (fun j => mget M i j).
  Definition mcol (M : mat) (j : nat) : vec := tab (mr M) (fun i => mget M i j).
  Definition mtrans (M : mat) : mat := mtab (mc M) (mr M) (fun i j => mget M j i).
  (* M*x, M'*x *)
  Definition mv (M : mat) (x : vec) : vec := tab (mr M) (fun i => o_dot O (mrow M i) x).
  Definition mtv (M : mat) (x : vec) : vec := tab (mc M) (fun j => o_dot O (mcol M j) x).
  (* M*N *)
  Definition mm (M N : mat) : mat :=
    mtab (mr M) (mc N) (fun i j => o_dot O (mrow M i) (mcol N j)).
  Definition madd (M N : mat) : mat :=
    mtab (mr M) (mc M) (fun i j => o_add O (mget M i j) (mget N i j)).
  Definition msub (M N : mat) : mat :=
    mtab (mr M) (mc M) (fun i j => o_sub O (mget M i j) (mget N i j)).
  (* a * Identity(n,n) *)
  Definition meye (n : nat) (a : T) : mat :=
    mtab n n (fun i j => if i =? j then o_mul O a (o_one O) else o_mul O a (o_zero O)).
  (* diag(d) * M *)
  Definition mdiag_l (d : vec) (M : mat) : mat :=
    mtab (mr M) (mc M) (fun i j => o_mul O (vget d i) (mget M i j)).
  (* M.triangularView<Lower>() = N : only entries j <= i are assigned *)
  Definition mlower_assign (old new : mat) : mat :=
    mtab (mr old) (mc old) (fun i j => if j <=? i then mget new i j else mget old i j).
  (* the symmetric matrix an algorithm reading only the lower triangle sees *)
  Definition symlow (M : mat) : mat :=
    mtab (mr M) (mr M) (fun i j => if j <=? i then mget M i j else mget M j i).

  Definition mat_ok (M : mat) : bool := length (me M) =? mr M * mc M.
End Vec.
Arguments vec : clear implicits.
Arguments mat : clear implicits.
Arguments mkMat {T}. Arguments mr {T}. Arguments mc {T}. Arguments me {T}.

Section VecFacts.
  Context {T : Type} (O : Ops T).

  Lemma vget_tab n f i : i < n -> vget O (tab n f) i = f i.
  Proof. intro H. unfold vget. apply tab_nth; exact H. Qed.

  Lemma vec_ext (u v : vec T) :
    length u = length v -> (forall i, i < length u -> vget O u i = vget O v i) -> u = v.
  Proof. apply list_ext. Qed.

  Lemma tab_vget (u : vec T) : tab (length u) (vget O u) = u.
  Proof. apply tab_nth_self. Qed.

  Lemma mget_mtab r c f i j : i < r -> j < c -> mget O (mtab r c f) i j = f i j.
  Proof.
    intros Hi Hj. unfold mget, mtab; simpl.
    rewrite vget_tab by nia.
    rewrite (Nat.add_comm (j * r) i), Nat.mod_add, Nat.mod_small by lia.
    rewrite Nat.div_add, Nat.div_small by lia. reflexivity.
  Qed.

  Lemma vaxpy_len a x y : length (vaxpy O a x y) = length y.
  Proof. apply tab_length. Qed.
  Lemma vscale_len a x : length (vscale O a x) = length x.
  Proof. apply tab_length. Qed.
  Lemma vadd_len x y : length (vadd O y x) = length y.
  Proof. apply tab_length. Qed.
  Lemma vsub_len x y : length (vsub O y x) = length y.
  Proof. apply tab_length. Qed.
  Lemma vopp_len x : length (vopp O x) = length x.
  Proof. apply tab_length. Qed.
  Lemma vquot_len x y : length (vquot O x y) = length x.
  Proof. apply tab_length. Qed.
  Lemma vseg_len x s n : length (vseg O x s n) = n.
  Proof. apply tab_length. Qed.
  Lemma vconst_len n (a : T) : length (vconst n a) = n.
  Proof. apply tab_length. Qed.
  Lemma mv_len M x : length (mv O M x) = mr M.
  Proof. apply tab_length. Qed.
  Lemma mtv_len M x : length (mtv O M x) = mc M.
  Proof. apply tab_length. Qed.
  Lemma mrow_len M i : length (mrow O M i) = mc M.
  Proof. apply tab_length. Qed.
  Lemma mcol_len M i : length (mcol O M i) = mr M.
  Proof. apply tab_length. Qed.
  Lemma mtab_ok r c (f : nat -> nat -> T) : mat_ok (mtab r c f) = true.
  Proof. unfold mat_ok, mtab; simpl. rewrite tab_length. apply Nat.eqb_refl. Qed.
End VecFacts.

Global Hint Rewrite @tab_length @vaxpy_len @vscale_len @vadd_len @vsub_len @vopp_len @vquot_len
  @vseg_len @vconst_len @mv_len @mtv_len @mrow_len @mcol_len : vlen.
