(* The structs passed to Solve, as their constructors make them (C62). *)
From Verif Require Export PropsApi PropsSeq PropsShared Storage.
From Coq Require Import Floats.SpecFloat.
Local Open Scope Z_scope.

(* ---------- specification ---------- *)

(* an Eigen vector of n zeros *)
Definition zero_vector {T} (O : Ops T) (n : Z) (v : vec T) : Prop :=
  Z.of_nat (length v) = n /\ forall i, (i < length v)%nat -> vget O v i = o_zero O.
(* the dense problem a caller has after ProblemData(nz,nl,nv) and assigning entries *)
Definition same_shape {T} (p q : dense_qp T) : Prop :=
  (mr (q_H p) = mr (q_H q) /\ mc (q_H p) = mc (q_H q)) /\
  (mr (q_G p) = mr (q_G q) /\ mc (q_G p) = mc (q_G q)) /\
  (mr (q_A p) = mr (q_A q) /\ mc (q_A p) = mc (q_A q)) /\
  length (q_f p) = length (q_f q) /\ length (q_h p) = length (q_h q) /\ length (q_b p) = length (q_b q).
Definition same_lengths {T} (x y : var T) : Prop :=
  length (v_z x) = length (v_z y) /\ length (v_l x) = length (v_l y) /\
  length (v_v x) = length (v_v y) /\ length (v_y x) = length (v_y y).
(* a call that ran: it returned, or threw for a reason other than sizes *)
Definition ran {A} (m : res A) : Prop :=
  (forall e, m = Throw e -> size_error e = false) /\ (forall u, m <> UB u).

(* MatrixSequence(n,r,c) followed by any number of entry assignments *)
Inductive built {T} (O : Ops T) (n r c : Z) : mseq T -> Prop :=
| bl_new s : mseq_new O n r c = Ok s -> built O n r c s
| bl_write s k i j x s' : built O n r c s -> mseq_write s k i j x = Ok s' -> built O n r c s'.
(* FBstabMpc::ProblemData with every member built in its documented size *)
Record problem_built {T} (O : Ops T) (N nx nu nc : Z) (p : mpc_own T) : Prop := {
  pb_Q : built O (N + 1) nx nx (o_Q p); pb_R : built O (N + 1) nu nu (o_R p);
  pb_S : built O (N + 1) nu nx (o_S p); pb_q : built O (N + 1) nx 1 (o_q p);
  pb_r : built O (N + 1) nu 1 (o_r p); pb_A : built O N nx nx (o_A p);
  pb_B : built O N nx nu (o_B p); pb_c : built O N nx 1 (o_c p);
  pb_E : built O (N + 1) nc nx (o_E p); pb_L : built O (N + 1) nc nu (o_L p);
  pb_d : built O (N + 1) nc 1 (o_d p); pb_x0 : Z.of_nat (length (o_x0 p)) = nx }.

(* the finite double (-1)^s m 2^e rounded towards zero is z *)
Definition rounds_to_zero (x : F64) (z : Z) : Prop :=
  match x with
  | S754_zero _ => z = 0
  | S754_finite s m e =>
      let a := if s then - z else z in
      0 <= a /\
      if 0 <=? e then a = Z.pos m * 2 ^ e
      else a * 2 ^ (- e) <= Z.pos m < (a + 1) * 2 ^ (- e)
  | _ => False
  end.
(* the double x is exactly the integer z *)
Definition is_integer (x : F64) (z : Z) : Prop :=
  match x with
  | S754_zero _ => z = 0
  | S754_finite s m e =>
      let a := if s then - z else z in
      if 0 <=? e then a = Z.pos m * 2 ^ e else a * 2 ^ (- e) = Z.pos m
  | _ => False
  end.

Section Storage.
  Context {T : Type} (O : Ops T) (LA : LinAlg T).

  Lemma zeros_ok n : 0 <= n -> exists v, zeros O n = Ok v /\ zero_vector O n v.
  Proof.
    intro H. unfold zeros. rewrite (proj2 (Z.leb_le 0 n) H). cbn [ub_unless rbind].
    eexists. split; [reflexivity|]. unfold zero_vector, vconst. rewrite tab_length. split; [lia|].
    intros i Hi. rewrite vget_tab by exact Hi. reflexivity.
  Qed.
  Lemma raw_mat_ok r c g : 0 <= r -> 0 <= c -> exists m : mat T, raw_mat r c g = Ok m /\
    mr m = Z.to_nat r /\ mc m = Z.to_nat c.
  Proof.
    intros H1 H2. unfold raw_mat. rewrite (proj2 (Z.leb_le 0 r) H1), (proj2 (Z.leb_le 0 c) H2).
    cbn [andb ub_unless rbind]. eexists. split; [reflexivity|]. auto.
  Qed.
  Lemma raw_vec_ok n g : 0 <= n -> exists v : vec T, raw_vec n g = Ok v /\ length v = Z.to_nat n.
  Proof.
    intro H. unfold raw_vec. rewrite (proj2 (Z.leb_le 0 n) H). cbn [ub_unless rbind].
    eexists. split; [reflexivity|]. apply tab_length.
  Qed.

  (* Variable(nz,nl,nv) is the origin, in the sizes given *)
  Theorem C62_dense_variable : forall nz nl nv, 0 <= nz -> 0 <= nl -> 0 <= nv ->
    exists x, DenseVariable_new O nz nl nv = Ok x /\
      zero_vector O nz (v_z x) /\ zero_vector O nl (v_l x) /\
      zero_vector O nv (v_v x) /\ zero_vector O nv (v_y x).
  Proof.
    intros nz nl nv H1 H2 H3. unfold DenseVariable_new.
    destruct (zeros_ok nz H1) as (z & -> & Z1). destruct (zeros_ok nl H2) as (l & -> & Z2).
    destruct (zeros_ok nv H3) as (v & -> & Z3). cbn [rbind]. eexists. split; [reflexivity|]. auto.
  Qed.

  (* what a constructed dense solver accepts: ProblemData(nz,nl,nv) with any entries, and
     Variable(nz,nl,nv) with any entries (so also the solution of an earlier call) *)
  Theorem C62_dense_ready : forall g g' nz nl nv s0, o_eqb O (o_zero O) (o_zero O) = true ->
    FBstabDense_new O g nz nl nv = Ok s0 ->
    exists p x, DenseProblem_new nz nl nv g' = Ok p /\ DenseVariable_new O nz nl nv = Ok x /\
      forall s qp k y el, dense_reach O LA nz nl nv s -> same_shape qp p -> same_lengths y x ->
        ran (sr_out (snd (FBstabDense_Solve O LA s qp k y el))).
  Proof.
    intros g g' nz nl nv s0 Z0 E.
    pose proof (dense_new_inv O g nz nl nv s0 E) as [(_ & _ & _ & P1 & P2 & P3 & _) _].
    unfold DenseProblem_new.
    destruct (raw_mat_ok nz nz (g' 0%nat)) as (H & -> & H1 & H2); [lia|lia|].
    destruct (raw_mat_ok nl nz (g' 1%nat)) as (G & -> & G1 & G2); [lia|lia|].
    destruct (raw_mat_ok nv nz (g' 2%nat)) as (A & -> & A1 & A2); [lia|lia|].
    destruct (raw_vec_ok nz (g' 3%nat)) as (f & -> & F1); [lia|].
    destruct (raw_vec_ok nl (g' 4%nat)) as (h & -> & h1); [lia|].
    destruct (raw_vec_ok nv (g' 5%nat)) as (b & -> & B1); [lia|].
    destruct (C62_dense_variable nz nl nv) as (x & -> & (X1 & _) & (X2 & _) & (X3 & _) & (X4 & _)); [lia|lia|lia|].
    cbn [rbind]. eexists. eexists. split; [reflexivity|]. split; [reflexivity|].
    intros s qp k y el Hr (SH & SG & SA & Sf & Sh & Sb) (Y1 & Y2 & Y3 & Y4).
    cbn [q_H q_G q_A q_f q_h q_b] in *.
    assert (DS : dense_sizes (Z.to_nat nz) (Z.to_nat nl) (Z.to_nat nv) qp y) by (constructor; lia).
    assert (YF : y_fits k y (Z.to_nat nv)) by (destruct k; cbn; [exact I|lia]).
    split.
    - intros e Ee. exact (proj2 (C17_dense_size_validation O LA Z0 nz nl nv s qp k y el Hr) DS YF e Ee).
    - intro u. apply (C20_dense_no_ub O LA Z0 nz nl nv s qp k y el u Hr YF).
  Qed.

  (* ---------- MPC ---------- *)
  (* Variable(N,nx,nu,nc): the origin, when the sizes are ints; otherwise overflow *)
  Theorem C62_mpc_variable : forall N nx nu nc, 0 <= N -> 0 <= nx -> 0 <= nu -> 0 <= nc ->
    in_int (N + 1) = true -> in_int (nx + nu) = true ->
    if in_int ((N + 1) * (nx + nu)) && in_int ((N + 1) * nc)
    then exists x, MpcVariable_new O N nx nu nc = Ok x /\
      zero_vector O ((N + 1) * (nx + nu)) (v_z x) /\ zero_vector O ((N + 1) * nx) (v_l x) /\
      zero_vector O ((N + 1) * nc) (v_v x) /\ zero_vector O ((N + 1) * nc) (v_y x)
    else MpcVariable_new O N nx nu nc = UB UBOverflow.
  Proof.
    intros N nx nu nc H1 H2 H3 H4 I1 I2. unfold MpcVariable_new, iadd, imul. rewrite I1, I2. cbn [rbind].
    destruct (in_int ((N + 1) * (nx + nu))) eqn:I3; cbn [andb rbind]; [|reflexivity].
    destruct (zeros_ok ((N + 1) * (nx + nu))) as (z & -> & Z1); [nia|]. cbn [rbind].
    assert (I4 : in_int ((N + 1) * nx) = true) by (eapply in_int_le; [|exact I3]; nia). rewrite I4. cbn [rbind].
    destruct (zeros_ok ((N + 1) * nx)) as (l & -> & Z2); [nia|]. cbn [rbind].
    destruct (in_int ((N + 1) * nc)) eqn:I5; cbn [rbind]; [|reflexivity].
    destruct (zeros_ok ((N + 1) * nc)) as (v & -> & Z3); [nia|]. cbn [rbind].
    eexists. split; [reflexivity|]. auto.
  Qed.

  Lemma built_facts n r c s : built O n r c s -> ms_N s = n /\ ms_nr s = r /\ ms_nc s = c /\ seq_made O s.
  Proof.
    induction 1 as [s E|s k i j x s' _ (A1 & A2 & A3 & A4) E].
    - assert (M : seq_made O s) by (eapply sm_new; exact E).
      unfold mseq_new in E.
      apply rbind_ok in E. destruct E as ([] & E1 & E). apply rbind_ok in E. destruct E as ([] & E2 & E).
      apply rbind_ok in E. destruct E as (p & E3 & E). apply rbind_ok in E. destruct E as (q & E4 & E).
      injection E as <-. auto.
    - assert (M : seq_made O s') by (eapply sm_write; eassumption).
      unfold mseq_write in E.
      apply rbind_ok in E. destruct E as ([] & E1 & E). apply rbind_ok in E. destruct E as (p & E2 & E).
      apply rbind_ok in E. destruct E as (q & E3 & E). apply rbind_ok in E. destruct E as ([] & E4 & E).
      apply rbind_ok in E. destruct E as ([] & E5 & E).
      injection E as <-. auto.
  Qed.
  Lemma built_valid n r c s : built O n r c s -> seq_valid (map_of_mseq s).
  Proof.
    intro B. destruct (built_facts n r c s B) as (_ & _ & _ & M).
    destruct (wf_made O s M) as (W1 & W2 & W3 & W4 & W5 & W6).
    unfold seq_valid, map_of_mseq. cbn [mp_N mp_nr mp_nc mp_mem]. repeat (split; [assumption|]).
    intros _. eexists. split; [reflexivity|]. lia.
  Qed.

  (* what a constructed MPC solver accepts: sequences of the documented sizes with any entries,
     an x0 of nx entries, and Variable(N,nx,nu,nc) with any entries *)
  Theorem C62_mpc_ready : forall g N nx nu nc s0, o_eqb O (o_zero O) (o_zero O) = true ->
    FBstabMpc_new O g N nx nu nc = Ok s0 ->
    exists x, MpcVariable_new O N nx nu nc = Ok x /\
      forall s p k y el, mpc_reach O LA N nx nu nc s -> problem_built O N nx nu nc p -> same_lengths y x ->
        ran (sr_out (snd (FBstabMpc_SolveOwned O LA s p k y el))).
  Proof.
    intros g N nx nu nc s0 Z0 E. pose proof (C19_mpc_ctor O g N nx nu nc) as C. rewrite E in C.
    destruct ((N <? 1) || (nx <? 1) || (nu <? 1) || (nc <? 1)) eqn:P; [discriminate C|].
    rewrite !orb_false_iff, !Z.ltb_ge in P. destruct P as (((P1 & P2) & P3) & P4).
    destruct (in_int ((N + 1) * (nx + nu)) && in_int ((N + 1) * nc)) eqn:I; [|discriminate C].
    pose proof I as I'. apply andb_prop in I'. destruct I' as [I1 I2].
    assert (J1 : in_int (N + 1) = true) by (eapply in_int_le; [|exact I1]; nia).
    assert (J2 : in_int (nx + nu) = true) by (eapply in_int_le; [|exact I1]; nia).
    pose proof (C62_mpc_variable N nx nu nc ltac:(lia) ltac:(lia) ltac:(lia) ltac:(lia) J1 J2) as V.
    rewrite I in V. destruct V as (x & EX & (X1 & _) & (X2 & _) & (X3 & _) & (X4 & _)).
    exists x. split; [exact EX|]. intros s p k y el Hr [BQ BR BS Bq Br BA BB Bc BE BL Bd B0] (Y1 & Y2 & Y3 & Y4).
    unfold FBstabMpc_SolveOwned.
    assert (SV : seqs_valid (ref_of_own p)).
    { constructor; unfold ref_of_own; cbn [m_Q m_R m_S m_q m_r m_A m_B m_c m_E m_L m_d];
        eapply built_valid; eassumption. }
    destruct (built_facts _ _ _ _ BQ) as (Q1 & Q2 & Q3 & _). destruct (built_facts _ _ _ _ BR) as (R1 & R2 & R3 & _).
    destruct (built_facts _ _ _ _ BS) as (S1 & S2 & S3 & _). destruct (built_facts _ _ _ _ Bq) as (q1 & q2 & q3 & _).
    destruct (built_facts _ _ _ _ Br) as (r1 & r2 & r3 & _). destruct (built_facts _ _ _ _ BA) as (A1 & A2 & A3 & _).
    destruct (built_facts _ _ _ _ BB) as (B1 & B2 & B3 & _). destruct (built_facts _ _ _ _ Bc) as (c1 & c2 & c3 & _).
    destruct (built_facts _ _ _ _ BE) as (E1 & E2 & E3 & _). destruct (built_facts _ _ _ _ BL) as (L1 & L2 & L3 & _).
    destruct (built_facts _ _ _ _ Bd) as (d1 & d2 & d3 & _).
    assert (SC : single_columns (ref_of_own p)) by (unfold single_columns, ref_of_own, map_of_mseq; cbn; auto).
    assert (MF : mpc_fits (ref_of_own p)).
    { unfold mpc_fits, ref_of_own, map_of_mseq. cbn [m_Q m_R mp_N mp_nr]. rewrite Q1, Q2, R2. exact I1. }
    assert (MS : mpc_sizes N nx nu nc (ref_of_own p) y).
    { constructor; unfold seq_size, seq_rows, ref_of_own, map_of_mseq;
        cbn [m_Q m_R m_S m_q m_r m_A m_B m_c m_E m_L m_d m_x0 mp_N mp_nr mp_nc]; auto.
      rewrite Y1, Y2, Y3, Y4. auto. }
    split.
    - intros e Ee. exact (proj2 (C19_mpc_size_validation O LA Z0 N nx nu nc s _ k y el Hr SV SC MF) MS e Ee).
    - intro u. exact (C20_mpc_no_ub O LA Z0 N nx nu nc s _ k y el u Hr SV SC MF).
  Qed.

  (* data that was not set is refused by an exception, whatever the solver, and nothing changes:
     a default-constructed ProblemData or ProblemDataRef, and a ProblemDataRef without x0 *)
  Theorem C62_unset_data : forall s k x el,
    let refused r := r = (s, mkSR (Throw EDataSize) x [] []) in
    refused (FBstabMpc_Solve O LA s MpcRef_default k x el) /\
    (forall x0, refused (FBstabMpc_Solve O LA s (SetX0 MpcRef_default x0) k x el)) /\
    refused (FBstabMpc_SolveOwned O LA s MpcOwn_default k x el) /\
    (forall qp, seqs_valid qp -> m_x0 qp = [] -> refused (FBstabMpc_Solve O LA s qp k x el)).
  Proof.
    intros s k x el. cbv zeta. split; [reflexivity|]. split; [reflexivity|]. split; [reflexivity|].
    intros qp SV X. unfold FBstabMpc_Solve, MpcData_ctor, mpc_validate. rewrite X.
    destruct (sv_Q _ SV) as (_ & Q2 & _).
    destruct (negb _); cbn [throw_unless rbind]; [|reflexivity].
    destruct (_ && _); cbn [throw_unless rbind]; [|reflexivity].
    replace (Z.of_nat (length (@nil T)) =? mp_nr (m_Q qp)) with false
      by (symmetry; apply Z.eqb_neq; cbn; lia).
    reflexivity.
  Qed.

  (* a ProblemDataRef made from sequences is the problem that owns them; SetX0 replaces x0 only *)
  Theorem C62_ref_of_parts : forall s (p : mpc_own T) k x el x0,
    FBstabMpc_Solve O LA s (MpcRef_new (o_Q p) (o_R p) (o_S p) (o_q p) (o_r p) (o_A p) (o_B p) (o_c p)
                              (o_E p) (o_L p) (o_d p) (o_x0 p)) k x el
      = FBstabMpc_SolveOwned O LA s p k x el /\
    FBstabMpc_Solve O LA s (SetX0 (MpcRef_new (o_Q p) (o_R p) (o_S p) (o_q p) (o_r p) (o_A p) (o_B p)
                              (o_c p) (o_E p) (o_L p) (o_d p) (o_x0 p)) x0) k x el
      = FBstabMpc_SolveOwned O LA s (mkMO (o_Q p) (o_R p) (o_S p) (o_q p) (o_r p) (o_A p) (o_B p) (o_c p)
                              (o_E p) (o_L p) (o_d p) x0) k x el.
  Proof. intros. split; reflexivity. Qed.

  (* the six maps a dense ProblemDataRef is made from, and the four of a VariableRef, mean the
     matrices and vectors they show, each in its place: H, f, G, h, A, b and z, l, v, y *)
  Theorem C62_dense_ref_parts : forall nz nl nv s m H f G h A b z l v y el,
    dense_reach O LA nz nl nv s -> Z.of_nat (sp_len y) = nv ->
    all_apart [z; l; v; y] [mspan H; f; mspan G; h; mspan A; b] ->
    apart z l -> apart z v -> apart z y -> apart l v -> apart l y -> apart v y ->
    let r := snd (FBstabDense_SolveRef O LA s m (DenseRef_new H f G h A b) (VariableRef_new z l v y) el) in
    let c := snd (FBstabDense_Solve O LA s
                    {| q_H := load_mat m H; q_f := load m f; q_G := load_mat m G; q_h := load m h;
                       q_A := load_mat m A; q_b := load m b |} Mapped
                    {| v_z := load m z; v_l := load m l; v_v := load m v; v_y := load m y |} el) in
    me_out r = sr_out c /\ me_log r = sr_log c /\
    load (me_mem r) z = v_z (sr_x c) /\ load (me_mem r) l = v_l (sr_x c) /\
    load (me_mem r) v = v_v (sr_x c) /\ load (me_mem r) y = v_y (sr_x c).
  Proof.
    intros nz nl nv s m H f G h A b z l v y el Hr Hy Ha A1 A2 A3 A4 A5 A6. cbv zeta.
    destruct (C61_dense_apart O LA nz nl nv s m (DenseRef_new H f G h A b) (VariableRef_new z l v y) el
                Hr ltac:(cbn; lia) Ha) as (E1 & E2 & _ & E4).
    specialize (E4 ltac:(unfold vars_apart; cbn; auto 10)).
    split; [exact E1|]. split; [exact E2|].
    match goal with |- context [sr_x ?c] => change c with (snd (FBstabDense_Solve O LA s
       (load_dense m (DenseRef_new H f G h A b)) Mapped (load_var m (VariableRef_new z l v y)) el)) end.
    rewrite <- E4. auto.
  Qed.
End Storage.

(* ---------- sizes given as doubles ---------- *)
Lemma trunc_abs_spec m e : 0 <= trunc_abs m e /\
  if 0 <=? e then trunc_abs m e = Z.pos m * 2 ^ e
  else trunc_abs m e * 2 ^ (- e) <= Z.pos m < (trunc_abs m e + 1) * 2 ^ (- e).
Proof.
  unfold trunc_abs. destruct (0 <=? e) eqn:E.
  - apply Z.leb_le in E. split; [|reflexivity]. apply Z.mul_nonneg_nonneg; [lia|]. apply Z.pow_nonneg. lia.
  - apply Z.leb_gt in E. assert (P : 0 < 2 ^ (- e)) by (apply Z.pow_pos_nonneg; lia).
    split; [apply Z.div_pos; lia|].
    pose proof (Z.div_mod (Z.pos m) (2 ^ (- e)) ltac:(lia)) as D.
    pose proof (Z.mod_pos_bound (Z.pos m) (2 ^ (- e)) P) as B. nia.
Qed.

Lemma to_int_spec x z : to_int x = Ok z <-> rounds_to_zero x z /\ in_int z = true.
Proof.
  destruct x as [s|s| |s m e]; cbn [to_int rounds_to_zero].
  - split; [intros [= <-]; split; reflexivity|intros [-> _]; reflexivity].
  - split; [discriminate|intros [[] _]].
  - split; [discriminate|intros [[] _]].
  - destruct (trunc_abs_spec m e) as [T1 T2]. set (t := trunc_abs m e) in *.
    assert (U : forall a, 0 <= a /\ (if 0 <=? e then a = Z.pos m * 2 ^ e
              else a * 2 ^ (- e) <= Z.pos m < (a + 1) * 2 ^ (- e)) -> a = t).
    { intros a [A1 A2]. destruct (0 <=? e) eqn:E; [congruence|].
      apply Z.leb_gt in E. assert (P : 0 < 2 ^ (- e)) by (apply Z.pow_pos_nonneg; lia).
      destruct (Z_lt_le_dec a t) as [L|L]; [nia|]. destruct (Z_lt_le_dec t a) as [L'|L']; [nia|]. lia. }
    split.
    + intro H. destruct (in_int (if s then - t else t)) eqn:I; cbn [ub_unless rbind] in H; [|discriminate H].
      injection H as <-. split; [|exact I]. destruct s; rewrite ?Z.opp_involutive; auto.
    + intros [H I]. apply U in H. destruct s; [assert (z = - t) by lia|]; subst; rewrite I; reflexivity.
Qed.

Lemma integer_rounds x z : is_integer x z -> rounds_to_zero x z.
Proof.
  destruct x as [s|s| |s m e]; cbn [is_integer rounds_to_zero]; auto. destruct (0 <=? e) eqn:E; intro H.
  - apply Z.leb_le in E. split; [|exact H]. rewrite H. apply Z.mul_nonneg_nonneg; [lia|apply Z.pow_nonneg; lia].
  - apply Z.leb_gt in E. assert (P : 0 < 2 ^ (- e)) by (apply Z.pow_pos_nonneg; lia). split; nia.
Qed.

(* FBstabMpc(s) and Variable(s) with s = (N,nx,nu,nc) as doubles: the entries are rounded towards
   zero; entries that are NaN, infinite or not ints after rounding are undefined behaviour *)
Theorem C62_vector_sizes : forall g s0 s1 s2 s3 N nx nu nc,
  rounds_to_zero s0 N -> rounds_to_zero s1 nx -> rounds_to_zero s2 nu -> rounds_to_zero s3 nc ->
  in_int N = true -> in_int nx = true -> in_int nu = true -> in_int nc = true ->
  FBstabMpc_new_vec g s0 s1 s2 s3 = FBstabMpc_new Fops g N nx nu nc /\
  MpcVariable_new_vec s0 s1 s2 s3 = MpcVariable_new Fops N nx nu nc.
Proof.
  intros g s0 s1 s2 s3 N nx nu nc R0 R1 R2 R3 I0 I1 I2 I3.
  unfold FBstabMpc_new_vec, MpcVariable_new_vec, int_sizes.
  rewrite (proj2 (to_int_spec s0 N)), (proj2 (to_int_spec s1 nx)), (proj2 (to_int_spec s2 nu)), (proj2 (to_int_spec s3 nc)) by auto.
  split; reflexivity.
Qed.
Theorem C62_vector_integers : forall g s0 s1 s2 s3 N nx nu nc,
  is_integer s0 N -> is_integer s1 nx -> is_integer s2 nu -> is_integer s3 nc ->
  in_int N = true -> in_int nx = true -> in_int nu = true -> in_int nc = true ->
  FBstabMpc_new_vec g s0 s1 s2 s3 = FBstabMpc_new Fops g N nx nu nc /\
  MpcVariable_new_vec s0 s1 s2 s3 = MpcVariable_new Fops N nx nu nc.
Proof. intros. apply C62_vector_sizes; auto using integer_rounds. Qed.
Definition no_int (x : F64) : Prop := forall z, rounds_to_zero x z -> in_int z = false.
Lemma to_int_undefined x : (exists z, to_int x = Ok z) \/ to_int x = UB UBOverflow.
Proof.
  destruct x as [s|s| |s m e]; cbn; auto; [left; eexists; reflexivity|].
  destruct (in_int _); cbn; [left; eexists; reflexivity|right; reflexivity].
Qed.
Lemma no_int_undefined x : no_int x -> to_int x = UB UBOverflow.
Proof.
  intro H. destruct (to_int_undefined x) as [[z E]|E]; [|exact E].
  apply to_int_spec in E. destruct E as [E I]. rewrite (H z E) in I. discriminate I.
Qed.
Theorem C62_vector_undefined : forall g s0 s1 s2 s3,
  no_int s0 \/ no_int s1 \/ no_int s2 \/ no_int s3 ->
  FBstabMpc_new_vec g s0 s1 s2 s3 = UB UBOverflow /\ MpcVariable_new_vec s0 s1 s2 s3 = UB UBOverflow.
Proof.
  intros g s0 s1 s2 s3 H. unfold FBstabMpc_new_vec, MpcVariable_new_vec.
  assert (E : int_sizes s0 s1 s2 s3 = UB UBOverflow).
  { unfold int_sizes. destruct H as [H|[H|[H|H]]]; apply no_int_undefined in H; rewrite H;
      destruct (to_int_undefined s0) as [[z0 E0]|E0]; rewrite ?E0; cbn [rbind]; try reflexivity;
      destruct (to_int_undefined s1) as [[z1 E1]|E1]; rewrite ?E1; cbn [rbind]; try reflexivity;
      destruct (to_int_undefined s2) as [[z2 E2]|E2]; rewrite ?E2; cbn [rbind]; reflexivity. }
  rewrite E. split; reflexivity.
Qed.

(* a default-constructed view is an empty sequence: every access throws std::out_of_range *)
Theorem C62_default_view : forall (T : Type) k, mp_N (mapseq_default (T:=T)) = 0 /\ mapseq_at (mapseq_default (T:=T)) k = Throw EIndex.
Proof.
  intros T k. split; [reflexivity|]. unfold mapseq_at, mapseq_default. cbn [mp_N].
  destruct ((k <? 0) || (0 <=? k)) eqn:E; [reflexivity|]. apply orb_false_iff in E. lia.
Qed.

(* 2.9 rounds to 2; (10, 2, 1, 3) as doubles are the ints; 1e10 is no int *)
Example C62_round_example : rounds_to_zero (Fdec 29 (-1)) 2 /\ is_integer (Fint 10) 10 /\
  no_int (Fdec 1 10) /\ no_int S754_nan.
Proof.
  split; [vm_compute; repeat split; discriminate|]. split; [vm_compute; reflexivity|].
  split; [|intros z []].
  intros N H. destruct (in_int N) eqn:I; [|reflexivity]. exfalso.
  pose proof (proj2 (to_int_spec _ N) (conj H I)) as E.
  assert (U : to_int (Fdec 1 10) = UB UBOverflow) by (vm_compute; reflexivity).
  rewrite U in E. discriminate E.
Qed.

(* constructed solvers and built problems exist *)
Example C62_ready_example : exists s p, FBstabMpc_new Fops
    (mkGarbage (fun _ => Fint 7) (fun _ => Fint 7) (fun _ => Fint 7) (fun _ _ _ => Fint 7)) 2 2 1 3 = Ok s /\
  problem_built Fops 2 2 1 3 p.
Proof.
  destruct (FBstabMpc_new _ _ 2 2 1 3) as [s| |] eqn:E; [|vm_compute in E; discriminate E..].
  exists s.
  assert (NW : forall n r c, is_ok (mseq_new Fops n r c) = true -> exists q, mseq_new Fops n r c = Ok q).
  { intros n r c H. destruct (mseq_new Fops n r c) as [q| |]; [exists q; reflexivity|discriminate H..]. }
  destruct (NW 3 2 2 ltac:(vm_compute; reflexivity)) as [Q HQ]. destruct (NW 3 1 1 ltac:(vm_compute; reflexivity)) as [R HR]. destruct (NW 3 1 2 ltac:(vm_compute; reflexivity)) as [S_ HS].
  destruct (NW 3 2 1 ltac:(vm_compute; reflexivity)) as [q_ Hq]. destruct (NW 2 2 2 ltac:(vm_compute; reflexivity)) as [A HA]. destruct (NW 2 2 1 ltac:(vm_compute; reflexivity)) as [B HB].
  destruct (NW 3 3 2 ltac:(vm_compute; reflexivity)) as [E_ HE]. destruct (NW 3 3 1 ltac:(vm_compute; reflexivity)) as [L HL].
  exists (mkMO Q R S_ q_ R A B B E_ L L [Fint 0; Fint 0]). split; [reflexivity|].
  constructor; cbn [o_Q o_R o_S o_q o_r o_A o_B o_c o_E o_L o_d o_x0]; try (apply bl_new; assumption); reflexivity.
Qed.
