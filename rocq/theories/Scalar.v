(* Scalars: C++ [double] as a record of operations.

   The code uses [double] arithmetic through Eigen.  A value of [Ops T] fixes one
   arithmetic; [o_dot] is the inner product kernel in whatever order Eigen sums, [o_maxc] is
   Eigen's maxCoeff.  Results proved for every [Ops T] therefore hold for
   IEEE doubles whatever the summation order. *)
From Coq Require Export List ZArith Bool Lia.
From Coq Require Import Reals Lra.
From Coq Require Import Floats.SpecFloat.
Export ListNotations.

Record Ops (T : Type) : Type := mkOps {
  o_zero : T;                       (* literal 0.0 *)
  o_one  : T;                       (* literal 1.0 *)
  o_dec  : Z -> Z -> T;             (* o_dec m e = literal m * 10^e *)
  o_add  : T -> T -> T;
  o_sub  : T -> T -> T;
  o_mul  : T -> T -> T;
  o_div  : T -> T -> T;
  o_opp  : T -> T;
  o_sqrt : T -> T;                  (* std::sqrt *)
  o_abs  : T -> T;
  o_ltb  : T -> T -> bool;          (* a < b *)
  o_leb  : T -> T -> bool;          (* a <= b *)
  o_eqb  : T -> T -> bool;          (* a == b *)
  o_dot  : list T -> list T -> T;   (* Eigen dot / gemv / gemm inner kernel *)
  o_maxc : list T -> T              (* Eigen maxCoeff of a non-empty vector *)
}.
Arguments mkOps {T}. Arguments o_zero {T}. Arguments o_one {T}. Arguments o_dec {T}.
Arguments o_add {T}. Arguments o_sub {T}. Arguments o_mul {T}. Arguments o_div {T}.
Arguments o_opp {T}. Arguments o_sqrt {T}. Arguments o_abs {T}. Arguments o_ltb {T}.
Arguments o_leb {T}. Arguments o_eqb {T}. Arguments o_dot {T}. Arguments o_maxc {T}.

Section StdAlgorithms.
  Context {T : Type} (O : Ops T).

  (* std::min(a,b): [(b < a) ? b : a]; used in tools/utilities.h:26,
     full_residual.cc:92.  A NaN first argument is returned. *)
  Definition smin (a b : T) : T := if o_ltb O b a then b else a.

  (* std::max(a,b): [(a < b) ? b : a]; used in tools/utilities.h:27,
     fbstab_algorithm-impl.h:8, full_residual.cc:104, full_feasibility.cc:72. *)
  Definition smax (a b : T) : T := if o_ltb O a b then b else a.

  (* Literals used in several places (e.g. -1.0, 2.0, 0.5). *)
  Definition o_mone : T := o_opp O (o_one O).
  Definition o_two  : T := o_dec O 2 0.
  Definition o_half : T := o_dec O 5 (-1).
End StdAlgorithms.

(* What is needed of comparisons.  [num x] is "x is not a NaN".  [Fops] and [Rops] both
   satisfy these laws (see [ord_F], [ord_R]). *)
Record OrdLaws {T : Type} (O : Ops T) (num : T -> Prop) : Prop := {
  ol_leb_num  : forall x y, o_leb O x y = true -> num x /\ num y;
  ol_ltb_num  : forall x y, o_ltb O x y = true -> num x /\ num y;
  ol_ltb      : forall x y, num x -> num y -> o_ltb O x y = negb (o_leb O y x);
  ol_total    : forall x y, num x -> num y -> o_leb O x y = true \/ o_leb O y x = true;
  ol_trans    : forall x y z, o_leb O x y = true -> o_leb O y z = true -> o_leb O x z = true;
  ol_zero_num : num (o_zero O)
}.

(* ------------------------------------------------------------------ *)
(* Exact reals.                                                         *)
Section Reals_instance.
Local Open Scope R_scope.

Definition Rltb (x y : R) : bool := if Rlt_dec x y then true else false.
Definition Rleb (x y : R) : bool := if Rle_dec x y then true else false.
Definition Reqb (x y : R) : bool := if Req_EM_T x y then true else false.
Definition Rdec (m e : Z) : R :=
  if (0 <=? e)%Z then IZR (m * 10 ^ e) else IZR m / IZR (10 ^ (- e)).

Fixpoint Rdot (u v : list R) : R :=
  match u, v with
  | x :: u', y :: v' => x * y + Rdot u' v'
  | _, _ => 0
  end.

Fixpoint Rmaxc (v : list R) : R :=
  match v with
  | [] => 0
  | [x] => x
  | x :: v' => Rmax x (Rmaxc v')
  end.

Definition Rops : Ops R :=
  mkOps 0 1 Rdec Rplus Rminus Rmult Rdiv Ropp sqrt Rabs Rltb Rleb Reqb Rdot Rmaxc.

Lemma Rltb_true x y : Rltb x y = true <-> x < y.
Proof. unfold Rltb; destruct (Rlt_dec x y); split; intros; try easy; lra. Qed.
Lemma Rltb_false x y : Rltb x y = false <-> y <= x.
Proof. unfold Rltb; destruct (Rlt_dec x y); split; intros; try easy; lra. Qed.
Lemma Rleb_true x y : Rleb x y = true <-> x <= y.
Proof. unfold Rleb; destruct (Rle_dec x y); split; intros; try easy; lra. Qed.
Lemma Rleb_false x y : Rleb x y = false <-> y < x.
Proof. unfold Rleb; destruct (Rle_dec x y); split; intros; try easy; lra. Qed.
Lemma Reqb_true x y : Reqb x y = true <-> x = y.
Proof. unfold Reqb; destruct (Req_EM_T x y); split; intros; try easy. Qed.
Lemma Reqb_false x y : Reqb x y = false <-> x <> y.
Proof. unfold Reqb; destruct (Req_EM_T x y); split; intros; try easy. Qed.

Lemma ord_R : OrdLaws Rops (fun _ => True).
Proof.
  constructor; simpl; auto.
  - intros x y _ _. destruct (Rleb y x) eqn:E; simpl.
    + apply Rltb_false. apply Rleb_true in E; lra.
    + apply Rltb_true. apply Rleb_false in E; lra.
  - intros x y _ _. destruct (Rle_dec x y); [left|right]; apply Rleb_true; lra.
  - intros x y z H1 H2. apply Rleb_true in H1, H2. apply Rleb_true; lra.
Qed.

End Reals_instance.

(* ------------------------------------------------------------------ *)
(* IEEE binary64: SpecFloat with prec = 53, emax = 1024.                *)
Definition F64 : Type := spec_float.
Definition fprec : Z := 53.
Definition femax : Z := 1024.

Definition Fadd : F64 -> F64 -> F64 := SFadd fprec femax.
Definition Fsub : F64 -> F64 -> F64 := SFsub fprec femax.
Definition Fmul : F64 -> F64 -> F64 := SFmul fprec femax.
Definition Fdiv : F64 -> F64 -> F64 := SFdiv fprec femax.
Definition Fsqrt : F64 -> F64 := SFsqrt fprec femax.

(* exact integer, correctly rounded *)
Definition Fint (z : Z) : F64 := binary_normalize fprec femax z 0 false.

(* decimal literals; for e < 0 the quotient of two integers (both exact for every
   literal appearing in the code), i.e. the correctly rounded value. *)
Definition Fdec (m e : Z) : F64 :=
  if (0 <=? e)%Z then Fint (m * 10 ^ e) else Fdiv (Fint m) (Fint (10 ^ (- e))).

(* one admissible summation order: left to right *)
Fixpoint Fdot_acc (acc : F64) (u v : list F64) : F64 :=
  match u, v with
  | x :: u', y :: v' => Fdot_acc (Fadd acc (Fmul x y)) u' v'
  | _, _ => acc
  end.
Definition Fdot (u v : list F64) : F64 := Fdot_acc (S754_zero false) u v.

Fixpoint Fmaxc_acc (acc : F64) (v : list F64) : F64 :=
  match v with
  | [] => acc
  | x :: v' => Fmaxc_acc (if SFltb acc x then x else acc) v'
  end.
Definition Fmaxc (v : list F64) : F64 :=
  match v with [] => S754_zero false | x :: v' => Fmaxc_acc x v' end.

Definition Fops : Ops F64 :=
  mkOps (S754_zero false) (Fint 1) Fdec Fadd Fsub Fmul Fdiv SFopp Fsqrt SFabs
        SFltb SFleb SFeqb Fdot Fmaxc.

Definition Fnum (x : F64) : Prop := x <> S754_nan.

(* order facts of SpecFloat comparison *)
Section SFcompare_facts.
  Local Open Scope Z_scope.
  (* a total preorder key: sign/exponent/mantissa as an integer triple *)
  Definition key (x : F64) : Z * Z * Z :=
    match x with
    | S754_nan => (0, 0, 0)
    | S754_infinity true => (-2, 0, 0)
    | S754_infinity false => (2, 0, 0)
    | S754_zero _ => (0, 0, 0)
    | S754_finite true m e => (-1, - e, - Zpos m)
    | S754_finite false m e => (1, e, Zpos m)
    end.
  Definition lexle (a b : Z * Z * Z) : Prop :=
    let '(a1, a2, a3) := a in let '(b1, b2, b3) := b in
    a1 < b1 \/ (a1 = b1 /\ (a2 < b2 \/ (a2 = b2 /\ a3 <= b3))).
  Definition lexlt (a b : Z * Z * Z) : Prop :=
    let '(a1, a2, a3) := a in let '(b1, b2, b3) := b in
    a1 < b1 \/ (a1 = b1 /\ (a2 < b2 \/ (a2 = b2 /\ a3 < b3))).

  Lemma pos_cmp m m' : Pos.compare m m' = (Zpos m ?= Zpos m').
  Proof. reflexivity. Qed.

  Lemma pos_cmp_cont m m' : Pos.compare_cont Eq m m' = (Zpos m ?= Zpos m').
  Proof. reflexivity. Qed.

  Ltac cmp :=
    repeat match goal with
    | |- context [Pos.compare_cont Eq ?a ?b] => rewrite (pos_cmp_cont a b)
    | |- context [Pos.compare ?a ?b] => rewrite (pos_cmp a b)
    end.

  Lemma SFleb_spec x y : Fnum x -> Fnum y -> (SFleb x y = true <-> lexle (key x) (key y)).
  Proof.
    intros Hx Hy. unfold SFleb, SFcompare, lexle, key.
    destruct x as [sx|sx| |sx mx ex], y as [sy|sy| |sy my ey];
      try (now elim Hx); try (now elim Hy);
      try destruct sx; try destruct sy; cmp;
      try (split; [intro; lia|intro; first [reflexivity | lia]]).
    all: destruct (Z.compare_spec ex ey) as [E|E|E]; cbn [CompOpp];
      try (destruct (Z.compare_spec (Zpos mx) (Zpos my)) as [F|F|F]; cbn [CompOpp]);
      (split; [intro G; try discriminate G; lia | intro G; first [reflexivity | exfalso; lia]]).
  Qed.

  Lemma SFltb_spec x y : Fnum x -> Fnum y -> (SFltb x y = true <-> lexlt (key x) (key y)).
  Proof.
    intros Hx Hy. unfold SFltb, SFcompare, lexlt, key.
    destruct x as [sx|sx| |sx mx ex], y as [sy|sy| |sy my ey];
      try (now elim Hx); try (now elim Hy);
      try destruct sx; try destruct sy; cmp;
      try (split; [intro G; try discriminate G; lia|intro; first [reflexivity | lia]]).
    all: destruct (Z.compare_spec ex ey) as [E|E|E]; cbn [CompOpp];
      try (destruct (Z.compare_spec (Zpos mx) (Zpos my)) as [F|F|F]; cbn [CompOpp]);
      (split; [intro G; try discriminate G; lia | intro G; first [reflexivity | exfalso; lia]]).
  Qed.
End SFcompare_facts.

Lemma SFleb_num x y : SFleb x y = true -> Fnum x /\ Fnum y.
Proof.
  unfold SFleb, SFcompare, Fnum; intro H; split; intro E; subst; simpl in H;
    try destruct x as [sx|[|]| |[|] mx ex]; discriminate H.
Qed.
Lemma SFltb_num x y : SFltb x y = true -> Fnum x /\ Fnum y.
Proof.
  unfold SFltb, SFcompare, Fnum; intro H; split; intro E; subst; simpl in H;
    try destruct x as [sx|[|]| |[|] mx ex]; discriminate H.
Qed.

Lemma ord_F : OrdLaws Fops Fnum.
Proof.
  constructor; simpl.
  - exact SFleb_num.
  - exact SFltb_num.
  - intros x y Hx Hy.
    pose proof (SFltb_spec x y Hx Hy) as H1. pose proof (SFleb_spec y x Hy Hx) as H2.
    destruct (key x) as [[a1 a2] a3], (key y) as [[b1 b2] b3]; simpl in H1, H2.
    destruct (SFltb x y), (SFleb y x); simpl; try reflexivity; exfalso.
    + assert (K1 := proj1 H1 eq_refl). assert (K2 := proj1 H2 eq_refl). lia.
    + assert (~ (b1 < a1 \/ b1 = a1 /\ (b2 < a2 \/ b2 = a2 /\ b3 <= a3)))%Z as N2
        by (intro G; apply H2 in G; discriminate G).
      assert (~ (a1 < b1 \/ a1 = b1 /\ (a2 < b2 \/ a2 = b2 /\ a3 < b3)))%Z as N1
        by (intro G; apply H1 in G; discriminate G). lia.
  - intros x y Hx Hy.
    pose proof (SFleb_spec x y Hx Hy) as H1. pose proof (SFleb_spec y x Hy Hx) as H2.
    rewrite H1, H2.
    destruct (key x) as [[a1 a2] a3], (key y) as [[b1 b2] b3]; simpl; lia.
  - intros x y z H1 H2.
    destruct (SFleb_num _ _ H1) as [Hx Hy], (SFleb_num _ _ H2) as [_ Hz].
    apply (SFleb_spec x y Hx Hy) in H1. apply (SFleb_spec y z Hy Hz) in H2.
    apply (SFleb_spec x z Hx Hz).
    destruct (key x) as [[a1 a2] a3], (key y) as [[b1 b2] b3], (key z) as [[c1 c2] c3];
      simpl in *; lia.
  - discriminate.
Qed.

(* Generic consequences. *)
Section OrdFacts.
  Context {T : Type} {O : Ops T} {num : T -> Prop} (OL : OrdLaws O num).

  Lemma leb_refl x : num x -> o_leb O x x = true.
  Proof. intro H. destruct (ol_total _ _ OL x x H H); assumption. Qed.

  Lemma ltb_leb x y : o_ltb O x y = true -> o_leb O x y = true.
  Proof.
    intro H. destruct (ol_ltb_num _ _ OL _ _ H) as [Hx Hy].
    rewrite (ol_ltb _ _ OL _ _ Hx Hy) in H.
    destruct (ol_total _ _ OL x y Hx Hy) as [E|E]; [exact E|].
    rewrite E in H; discriminate H.
  Qed.

  Lemma ltb_false_leb x y : num x -> num y -> o_ltb O x y = false -> o_leb O y x = true.
  Proof.
    intros Hx Hy H. rewrite (ol_ltb _ _ OL _ _ Hx Hy) in H.
    destruct (o_leb O y x); [reflexivity|discriminate H].
  Qed.

  Lemma leb_ltb_false x y : o_leb O x y = true -> o_ltb O y x = false.
  Proof.
    intro H. destruct (ol_leb_num _ _ OL _ _ H) as [Hx Hy].
    rewrite (ol_ltb _ _ OL _ _ Hy Hx), H. reflexivity.
  Qed.

  Lemma leb_false_ltb x y : num x -> num y -> o_leb O x y = false -> o_ltb O y x = true.
  Proof. intros Hx Hy H. rewrite (ol_ltb _ _ OL _ _ Hy Hx), H. reflexivity. Qed.

  Lemma ltb_trans_le x y z : o_ltb O x y = true -> o_leb O y z = true -> o_ltb O x z = true.
  Proof.
    intros H1 H2. destruct (ol_ltb_num _ _ OL _ _ H1) as [Hx Hy].
    destruct (ol_leb_num _ _ OL _ _ H2) as [_ Hz].
    destruct (o_ltb O x z) eqn:E; [reflexivity|].
    apply ltb_false_leb in E; auto.
    pose proof (ol_trans _ _ OL _ _ _ H2 E) as K.
    apply leb_ltb_false in K. congruence.
  Qed.
End OrdFacts.
