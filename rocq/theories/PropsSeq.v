(* MatrixSequence / MapMatrixSequence (C21) and owned vs mapped problem data (C22). *)
From Verif Require Import PropsApi.
Local Open Scope Z_scope.

(* ---------- specification ---------- *)

(* where entry (i,j) of matrix k lives: column-major matrices stored one after the other *)
Definition address (nr nc k i j : Z) : Z := k * nr * nc + j * nr + i.

Definition entry_of (len nr nc k i j : Z) : Prop := 0 <= k < len /\ 0 <= i < nr /\ 0 <= j < nc.

Section Seq.
  Context {T : Type} (O : Ops T).

  (* MatrixSequence objects: built by a constructor, then written through operator() *)
  Inductive seq_made : mseq T -> Prop :=
  | sm_default : seq_made mseq_default
  | sm_new n r c s : mseq_new O n r c = Ok s -> seq_made s
  | sm_write s k i j x s' : seq_made s -> mseq_write s k i j x = Ok s' -> seq_made s'.

  (* reading entry (i,j) of the k-th matrix of an owning sequence / of a view *)
  Definition read (s : mseq T) (k i j : Z) : res T :=
    rbind (mseq_at s k) (fun m => Ok (mget O m (Z.to_nat i) (Z.to_nat j))).
  Definition read_map (s : mapseq T) (k i j : Z) : res T :=
    rbind (mapseq_at s k) (fun m => Ok (mget O m (Z.to_nat i) (Z.to_nat j))).

  Definition seq_wf (s : mseq T) : Prop :=
    0 <= ms_N s /\ 0 < ms_nr s /\ 0 < ms_nc s /\ in_int (ms_N s * ms_nr s * ms_nc s) = true /\
    ms_nel s = ms_N s * ms_nr s * ms_nc s /\
    Z.of_nat (length (ms_data s)) = ms_N s * ms_nr s * ms_nc s.

  Lemma address_range len nr nc k i j : entry_of len nr nc k i j ->
    0 <= address nr nc k i j < len * nr * nc.
  Proof.
    unfold entry_of, address. intros (K & I & J).
    assert (0 <= j * nr) by nia. assert (j * nr + i < nr * nc) by nia.
    rewrite <- (Z.mul_assoc k), <- (Z.mul_assoc len). revert H0. generalize (nr * nc). intros m Hm. nia.
  Qed.

  Theorem C21_addresses_distinct : forall len nr nc k i j k' i' j',
    entry_of len nr nc k i j -> entry_of len nr nc k' i' j' ->
    address nr nc k i j = address nr nc k' i' j' -> k = k' /\ i = i' /\ j = j'.
  Proof.
    unfold entry_of, address. intros len nr nc k i j k' i' j' (K & I & J) (K' & I' & J') E.
    assert (B : 0 <= j * nr + i < nr * nc) by nia. assert (B' : 0 <= j' * nr + i' < nr * nc) by nia.
    assert (k = k').
    { assert (k * (nr * nc) + (j * nr + i) = k' * (nr * nc) + (j' * nr + i')) as E' by lia.
      revert E' B B'. generalize (nr * nc) (j * nr + i) (j' * nr + i'). intros m a b E' B B'.
      nia. }
    subst k'. assert (j = j') by nia. subst j'. lia.
  Qed.

  Lemma wf_made s : seq_made s -> seq_wf s.
  Proof.
    induction 1 as [|n r c s E|s k i j x s' _ IH E].
    - unfold seq_wf; cbn. repeat split; try lia.
    - unfold mseq_new in E.
      apply rbind_ok in E. destruct E as ([] & E1 & E). apply throw_ok in E1.
      apply rbind_ok in E. destruct E as ([] & E2 & E). apply throw_ok in E2.
      apply rbind_ok in E. destruct E as (p & E3 & E).
      apply rbind_ok in E. destruct E as (nel & E4 & E). injection E as <-.
      apply negb_true_iff in E1, E2. rewrite orb_false_iff in E2.
      rewrite Z.ltb_ge in E1. rewrite !Z.leb_gt in E2.
      pose proof (imul_ok _ _ _ E3). subst p. pose proof (imul_ok _ _ _ E4). subst nel.
      unfold seq_wf; cbn. rewrite repeat_length.
      assert (0 <= n * r * c) by (apply Z.mul_nonneg_nonneg; [apply Z.mul_nonneg_nonneg|]; lia).
      repeat split; try lia. revert E4. unfold imul. destruct (in_int _); [reflexivity|discriminate].
    - unfold mseq_write in E.
      apply rbind_ok in E. destruct E as ([] & E1 & E).
      apply rbind_ok in E. destruct E as (p & E3 & E).
      apply rbind_ok in E. destruct E as (q & E4 & E).
      apply rbind_ok in E. destruct E as ([] & E5 & E).
      apply rbind_ok in E. destruct E as ([] & E6 & E). injection E as <-.
      destruct IH as (W1 & W2 & W3 & W4 & W5 & W6). unfold seq_wf; cbn.
      repeat split; try assumption.
      unfold ub_unless in E5, E6. destruct (_ && _)%bool eqn:R in E5; [|discriminate].
      destruct (_ <? _)%Z eqn:R2 in E6; [|discriminate]. apply Z.ltb_lt in R2.
      pose proof (imul_ok _ _ _ E3). subst p. pose proof (imul_ok _ _ _ E4). subst q.
      apply throw_ok, negb_true_iff in E1. rewrite orb_false_iff, Z.ltb_ge, Z.leb_gt in E1.
      rewrite !andb_true_iff, !Z.leb_le, !Z.ltb_lt in R.
      assert (0 <= k * ms_nr s * ms_nc s) by (apply Z.mul_nonneg_nonneg; [apply Z.mul_nonneg_nonneg|]; lia).
      assert (0 <= j * ms_nr s) by (apply Z.mul_nonneg_nonneg; lia).
      rewrite <- W6. unfold list_set. rewrite app_length. cbn [length]. rewrite firstn_length, skipn_length. lia.
  Qed.

  (* The constructors accept exactly the documented sizes: a sequence may be empty, a view may not, a
     view needs memory, and the number of elements is an int. *)
  Theorem C21_owned_ctor : forall n r c,
    match mseq_new O n r c with
    | Ok s => 0 <= n /\ 0 < r /\ 0 < c /\ in_int (n * r * c) = true /\ ms_N s = n /\ ms_nr s = r /\ ms_nc s = c /\
              ms_nel s = n * r * c /\ Z.of_nat (length (ms_data s)) = n * r * c
    | Throw e => e = ESeqSize /\ (n < 0 \/ r <= 0 \/ c <= 0)
    | UB u => u = UBOverflow /\ 0 <= n /\ 0 < r /\ 0 < c /\ in_int (n * r * c) = false
    end.
  Proof.
    intros n r c. unfold mseq_new, imul. destruct (Z.ltb_spec n 0) as [A|A]; cbn [negb throw_unless rbind].
    { split; [reflexivity|lia]. }
    destruct (Z.leb_spec r 0) as [B|B]; cbn [orb negb throw_unless rbind]; [split; [reflexivity|lia]|].
    destruct (Z.leb_spec c 0) as [C|C]; cbn [orb negb throw_unless rbind]; [split; [reflexivity|lia]|].
    assert (P : 0 <= n * r) by (apply Z.mul_nonneg_nonneg; lia).
    assert (Q : n * r <= n * r * c) by nia.
    destruct (in_int (n * r)) eqn:E1; cbn [rbind].
    - destruct (in_int (n * r * c)) eqn:E2; cbn [rbind ms_N ms_nr ms_nc ms_nel ms_data].
      + rewrite repeat_length. repeat split; try lia; reflexivity.
      + auto.
    - repeat split; auto. apply not_true_is_false. intro E2. revert E1 E2. unfold in_int.
      rewrite andb_false_iff, andb_true_iff, !Z.leb_gt, !Z.leb_le. unfold int_min, int_max. lia.
  Qed.
  Theorem C21_view_ctor : forall mem n r c,
    match mapseq_new (T:=T) mem n r c with
    | Ok s => 0 < n /\ 0 < r /\ 0 < c /\ mem <> None /\ in_int (n * r * c) = true /\
              s = mkMap n r c (n * r * c) mem
    | Throw e => e = ESeqSize /\ (n <= 0 \/ r <= 0 \/ c <= 0 \/ mem = None)
    | UB u => u = UBOverflow /\ 0 < n /\ 0 < r /\ 0 < c /\ mem <> None /\ in_int (n * r * c) = false
    end.
  Proof.
    intros mem n r c. unfold mapseq_new, imul. destruct (Z.leb_spec n 0) as [A|A]; cbn [negb throw_unless rbind].
    { split; [reflexivity|lia]. }
    destruct (Z.leb_spec r 0) as [B|B]; cbn [orb negb throw_unless rbind]; [split; [reflexivity|lia]|].
    destruct (Z.leb_spec c 0) as [C|C]; cbn [orb negb throw_unless rbind]; [split; [reflexivity|lia]|].
    destruct mem as [mem|]; cbn [throw_unless rbind]; [|auto].
    assert (P : 0 <= n * r) by (apply Z.mul_nonneg_nonneg; lia).
    assert (Q : n * r <= n * r * c) by nia.
    destruct (in_int (n * r)) eqn:E1; cbn [rbind].
    - destruct (in_int (n * r * c)) eqn:E2; cbn [rbind]; repeat split; try lia; try discriminate.
    - repeat split; try lia; try discriminate. apply not_true_is_false. intro E2. revert E1 E2. unfold in_int.
      rewrite andb_false_iff, andb_true_iff, !Z.leb_gt, !Z.leb_le. unfold int_min, int_max. lia.
  Qed.

  Lemma index_ok b e : throw_unless b e = if b then Ok tt else Throw e.
  Proof. destruct b; reflexivity. Qed.

  Lemma nth_firstn_skipn (l : list T) n off a d : (a < n)%nat ->
    nth a (firstn n (skipn off l)) d = nth (off + a) l d.
  Proof.
    revert off a l. induction n as [|n IH]; intros off a l H; [lia|].
    revert l. induction off as [|off IHo]; intro l.
    - destruct l as [|x l]; [destruct a; reflexivity|]. cbn [skipn firstn].
      destruct a as [|a]; [reflexivity|]. cbn [nth plus].
      replace l with (skipn 0 l) at 1 by reflexivity. rewrite IH by lia. reflexivity.
    - destruct l as [|x l]; [rewrite skipn_nil, firstn_nil; destruct a; reflexivity|].
      cbn [skipn]. rewrite IHo. reflexivity.
  Qed.

  (* the common core of both operator() *)
  Lemma view_entry mem len nr nc k i j :
    0 < nr -> 0 < nc -> in_int (len * nr * nc) = true -> (len * nr * nc <= Z.of_nat (length mem)) ->
    entry_of len nr nc k i j ->
    exists m, view mem k nr nc = Ok m /\ Z.of_nat (mr m) = nr /\ Z.of_nat (mc m) = nc /\
      mget O m (Z.to_nat i) (Z.to_nat j) = nth (Z.to_nat (address nr nc k i j)) mem (o_zero O).
  Proof.
    intros P1 P2 I L En. pose proof (address_range _ _ _ _ _ _ En) as AR.
    destruct En as (K & Ii & J).
    assert (N1 : 0 <= k * nr) by (apply Z.mul_nonneg_nonneg; lia).
    assert (N2 : 0 <= k * nr * nc) by (apply Z.mul_nonneg_nonneg; lia).
    assert (M1 : k * nr <= k * nr * nc) by nia.
    assert (M2 : (k + 1) * (nr * nc) <= len * (nr * nc)) by nia.
    assert (M3 : 0 < nr * nc) by nia.
    unfold view, imul.
    rewrite (in_int_le (k * nr) (len * nr * nc)) by (try exact I; nia). cbn [rbind].
    rewrite (in_int_le (k * nr * nc) (len * nr * nc)) by (try exact I; nia). cbn [rbind].
    assert (B : (Z.to_nat (k * nr * nc) + Z.to_nat nr * Z.to_nat nc <=? length mem)%nat = true).
    { apply Nat.leb_le. rewrite <- Z2Nat.inj_mul by lia. rewrite <- Z2Nat.inj_add by lia. nia. }
    rewrite B. cbn [ub_unless rbind]. eexists. split; [reflexivity|]. cbn [mr mc].
    split; [lia|]. split; [lia|].
    unfold mget, vget. cbn [mr mc me].
    assert (LT : (Z.to_nat j * Z.to_nat nr + Z.to_nat i < Z.to_nat nr * Z.to_nat nc)%nat).
    { rewrite <- !Z2Nat.inj_mul by lia. rewrite <- Z2Nat.inj_add by nia. apply Z2Nat.inj_lt; nia. }
    rewrite nth_firstn_skipn by exact LT. f_equal.
    unfold address. rewrite !Z2Nat.inj_add by nia. rewrite Z2Nat.inj_mul by lia. lia.
  Qed.

  (* ---------------------------------------------------------------- C21 *)
  (* entry (i,j) of matrix k, owning sequence *)
  Theorem C21_owned_entry : forall s k i j, seq_made s ->
    entry_of (ms_N s) (ms_nr s) (ms_nc s) k i j ->
    0 <= address (ms_nr s) (ms_nc s) k i j < Z.of_nat (length (ms_data s)) /\
    exists m, mseq_at s k = Ok m /\ Z.of_nat (mr m) = ms_nr s /\ Z.of_nat (mc m) = ms_nc s /\
      mget O m (Z.to_nat i) (Z.to_nat j) =
      nth (Z.to_nat (address (ms_nr s) (ms_nc s) k i j)) (ms_data s) (o_zero O).
  Proof.
    intros s k i j M En. pose proof (wf_made s M) as (W1 & W2 & W3 & W4 & W5 & W6).
    split; [rewrite W6; apply address_range; exact En|].
    destruct (view_entry (ms_data s) (ms_N s) (ms_nr s) (ms_nc s) k i j) as (m & Ev & Em); auto; [lia|].
    exists m. split; [|exact Em]. unfold mseq_at. destruct En as (K & _).
    replace ((k <? 0) || (ms_N s <=? k)) with false
      by (symmetry; rewrite orb_false_iff, Z.ltb_ge, Z.leb_gt; lia). exact Ev.
  Qed.

  (* entry (i,j) of matrix k, view over memory that is there *)
  Theorem C21_view_entry : forall s mem k i j, seq_valid s -> mp_mem s = Some mem ->
    entry_of (mp_N s) (mp_nr s) (mp_nc s) k i j ->
    0 <= address (mp_nr s) (mp_nc s) k i j < Z.of_nat (length mem) /\
    exists m, mapseq_at s k = Ok m /\ Z.of_nat (mr m) = mp_nr s /\ Z.of_nat (mc m) = mp_nc s /\
      mget O m (Z.to_nat i) (Z.to_nat j) =
      nth (Z.to_nat (address (mp_nr s) (mp_nc s) k i j)) mem (o_zero O).
  Proof.
    intros s mem k i j (V1 & V2 & V3 & V4 & V5) E En.
    destruct V5 as (mem' & E' & L); [destruct En; lia|]. rewrite E' in E. injection E as ->.
    pose proof (address_range _ _ _ _ _ _ En).
    split; [lia|].
    destruct (view_entry mem (mp_N s) (mp_nr s) (mp_nc s) k i j) as (m & Ev & Em); auto.
    exists m. split; [|exact Em]. unfold mapseq_at. destruct En as (K & _).
    replace ((k <? 0) || (mp_N s <=? k)) with false
      by (symmetry; rewrite orb_false_iff, Z.ltb_ge, Z.leb_gt; lia). rewrite E'. exact Ev.
  Qed.

  (* an index outside the sequence throws, whatever the object *)
  Theorem C21_index_check : forall k,
    (forall s : mseq T, ~ 0 <= k < ms_N s -> mseq_at s k = Throw EIndex) /\
    (forall (s : mseq T) i j x, ~ 0 <= k < ms_N s -> mseq_write s k i j x = Throw EIndex) /\
    (forall s : mapseq T, ~ 0 <= k < mp_N s -> mapseq_at s k = Throw EIndex).
  Proof.
    assert (B : forall n k, ~ 0 <= k < n -> ((k <? 0) || (n <=? k)) = true).
    { intros n k H. rewrite orb_true_iff, Z.ltb_lt, Z.leb_le. lia. }
    intro k. split; [|split].
    - intros s H. unfold mseq_at. rewrite B by exact H. reflexivity.
    - intros s i j x H. unfold mseq_write. rewrite B by exact H. reflexivity.
    - intros s H. unfold mapseq_at. rewrite B by exact H. reflexivity.
  Qed.

  Lemma nth_skipn_ (l : list T) n q d : nth q (skipn n l) d = nth (n + q) l d.
  Proof.
    revert l. induction n as [|n IH]; intro l; [reflexivity|].
    destruct l; [destruct q; reflexivity|]. apply IH.
  Qed.

  Lemma nth_list_set (l : list T) n m x d : (n < length l)%nat ->
    nth m (list_set l n x) d = if (m =? n)%nat then x else nth m l d.
  Proof.
    intro H. unfold list_set.
    destruct (Nat.eqb_spec m n) as [->|D].
    - rewrite app_nth2 by (rewrite firstn_length; lia). rewrite firstn_length, Nat.min_l by lia.
      rewrite Nat.sub_diag. reflexivity.
    - destruct (Nat.lt_ge_cases m n).
      + rewrite app_nth1 by (rewrite firstn_length; lia).
        pose proof (nth_firstn_skipn l n 0 m d). cbn [skipn plus] in H1. apply H1. lia.
      + rewrite app_nth2 by (rewrite firstn_length; lia). rewrite firstn_length, Nat.min_l by lia.
        destruct (m - n)%nat as [|q] eqn:Q; [lia|]. cbn [nth].
        rewrite nth_skipn_. f_equal. lia.
  Qed.

  (* writing one entry succeeds and changes that entry and no other, in any matrix *)
  Theorem C21_write : forall s k i j x, seq_made s ->
    entry_of (ms_N s) (ms_nr s) (ms_nc s) k i j ->
    exists s', mseq_write s k i j x = Ok s' /\ seq_made s' /\
      ms_N s' = ms_N s /\ ms_nr s' = ms_nr s /\ ms_nc s' = ms_nc s /\
      forall k' i' j', entry_of (ms_N s) (ms_nr s) (ms_nc s) k' i' j' ->
        ((k', i', j') = (k, i, j) -> read s' k' i' j' = Ok x) /\
        ((k', i', j') <> (k, i, j) -> read s' k' i' j' = read s k' i' j').
  Proof.
    intros s k i j x M En. pose proof (wf_made s M) as (W1 & W2 & W3 & W4 & W5 & W6).
    pose proof (address_range _ _ _ _ _ _ En) as AR. pose proof En as (K & I & J).
    assert (N1 : 0 <= k * ms_nr s) by (apply Z.mul_nonneg_nonneg; lia).
    assert (N2 : 0 <= k * ms_nr s * ms_nc s) by (apply Z.mul_nonneg_nonneg; lia).
    assert (M1 : k * ms_nr s <= k * ms_nr s * ms_nc s) by nia.
    assert (M2 : (k + 1) * (ms_nr s * ms_nc s) <= ms_N s * (ms_nr s * ms_nc s)) by nia.
    assert (M3 : 0 < ms_nr s * ms_nc s) by nia.
    set (s' := mkMseq (ms_N s) (ms_nr s) (ms_nc s) (ms_nel s)
                 (list_set (ms_data s) (Z.to_nat (address (ms_nr s) (ms_nc s) k i j)) x)).
    assert (E : mseq_write s k i j x = Ok s').
    { unfold mseq_write.
      replace ((k <? 0) || (ms_N s <=? k)) with false
        by (symmetry; rewrite orb_false_iff, Z.ltb_ge, Z.leb_gt; lia).
      cbn [negb throw_unless rbind]. unfold imul.
      rewrite (in_int_le (k * ms_nr s) (ms_N s * ms_nr s * ms_nc s)) by (try exact W4; nia). cbn [rbind].
      rewrite (in_int_le (k * ms_nr s * ms_nc s) (ms_N s * ms_nr s * ms_nc s)) by (try exact W4; nia). cbn [rbind].
      replace ((0 <=? i) && (i <? ms_nr s) && (0 <=? j) && (j <? ms_nc s)) with true
        by (symmetry; rewrite !andb_true_iff, !Z.leb_le, !Z.ltb_lt; lia).
      cbn [ub_unless rbind].
      replace (k * ms_nr s * ms_nc s + j * ms_nr s + i) with (address (ms_nr s) (ms_nc s) k i j) by reflexivity.
      replace (address (ms_nr s) (ms_nc s) k i j <? Z.of_nat (length (ms_data s))) with true
        by (symmetry; apply Z.ltb_lt; lia).
      reflexivity. }
    exists s'. assert (M' : seq_made s') by (eapply sm_write; eassumption).
    repeat (split; [first [exact E|exact M'|reflexivity]|]).
    intros k' i' j' En'.
    pose proof (address_range _ _ _ _ _ _ En') as AR'.
    destruct (C21_owned_entry s k' i' j' M En') as (_ & m & A1 & _ & _ & A2).
    destruct (C21_owned_entry s' k' i' j' M' En') as (_ & m' & B1 & _ & _ & B2).
    unfold read. rewrite A1, B1. cbn [rbind]. rewrite A2, B2. cbn [s' ms_nr ms_nc ms_data].
    rewrite nth_list_set by lia. split.
    - intros [= -> -> ->]. rewrite Nat.eqb_refl. reflexivity.
    - intro D. destruct (Nat.eqb_spec (Z.to_nat (address (ms_nr s) (ms_nc s) k' i' j'))
                                      (Z.to_nat (address (ms_nr s) (ms_nc s) k i j))) as [Q|Q]; [|reflexivity].
      exfalso. apply D. apply Z2Nat.inj in Q; try lia.
      destruct (C21_addresses_distinct _ _ _ _ _ _ _ _ _ En' En Q) as (-> & -> & ->). reflexivity.
  Qed.

  (* ---------------------------------------------------------------- C22 *)
  (* [v] views the memory of the owning sequence [s], through either constructor *)
  Definition views (s : mseq T) (v : mapseq T) : Prop :=
    v = map_of_mseq s \/ mapseq_new (Some (ms_data s)) (ms_N s) (ms_nr s) (ms_nc s) = Ok v.

  Lemma views_map s v : views s v -> v = map_of_mseq s.
  Proof.
    intros [H|H]; [exact H|]. unfold mapseq_new in H.
    apply rbind_ok in H. destruct H as ([] & _ & H).
    apply rbind_ok in H. destruct H as ([] & _ & H). cbn [throw_unless rbind] in H.
    apply rbind_ok in H. destruct H as (p & E3 & H).
    apply rbind_ok in H. destruct H as (nel & E4 & H). injection H as <-.
    pose proof (imul_ok _ _ _ E3). subst p. pose proof (imul_ok _ _ _ E4). subst nel. reflexivity.
  Qed.

  Record views_all (p : mpc_own T) (q : mpc_ref T) : Prop := {
    va_Q : views (o_Q p) (m_Q q); va_R : views (o_R p) (m_R q); va_S : views (o_S p) (m_S q);
    va_q : views (o_q p) (m_q q); va_r : views (o_r p) (m_r q); va_A : views (o_A p) (m_A q);
    va_B : views (o_B p) (m_B q); va_c : views (o_c p) (m_c q); va_E : views (o_E p) (m_E q);
    va_L : views (o_L p) (m_L q); va_d : views (o_d p) (m_d q); va_x0 : m_x0 q = o_x0 p }.

  Theorem C22_view_entries : forall s v k i j, seq_made s -> views s v ->
    entry_of (ms_N s) (ms_nr s) (ms_nc s) k i j -> read_map v k i j = read s k i j.
  Proof.
    intros s v k i j M V En. rewrite (views_map s v V).
    unfold read_map, read, mapseq_at, mseq_at. reflexivity.
  Qed.

  Theorem C22_owned_mapped : forall (LA : LinAlg T) sv p q k x el, views_all p q ->
    FBstabMpc_Solve O LA sv q k x el = FBstabMpc_SolveOwned O LA sv p k x el.
  Proof.
    intros LA sv p q k x el [? ? ? ? ? ? ? ? ? ? ? E]. unfold FBstabMpc_SolveOwned. f_equal.
    destruct q. cbn in *. unfold ref_of_own. subst. f_equal; apply views_map; assumption.
  Qed.
End Seq.
