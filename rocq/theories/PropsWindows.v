(* C61: what a problem and a guess given by pointers consist of: which memory cell is which
   entry.  The other C61 theorems speak of "the problem found in memory" (load_dense, load_mpc,
   load_var); these say what that is, cell by cell. *)
From Verif Require Export PropsStorage.
Local Open Scope Z_scope.

Section Windows.
  Context {T : Type} (O : Ops T).

  (* entry (i,j) of a column-major matrix whose first entry is at address a *)
  Definition matrix_at (m : memory T) (v : mview) (M : mat T) : Prop :=
    mr M = mv_r v /\ mc M = mv_c v /\
    forall i j, (i < mv_r v)%nat -> (j < mv_c v)%nat ->
      mget O M i j = m (mv_at v + (j * mv_r v + i))%nat.
  (* entry i of a vector *)
  Definition vector_at (m : memory T) (s : span) (u : vec T) : Prop :=
    length u = sp_len s /\ forall i, (i < sp_len s)%nat -> vget O u i = m (sp_at s + i)%nat.
  (* a sequence of sq_N matrices of size sq_nr x sq_nc, stored one after another *)
  Definition sequence_at (m : memory T) (v : sview) (s : mapseq T) : Prop :=
    mp_N s = sq_N v /\
    forall k, 0 <= k < sq_N v -> exists M, mapseq_at s k = Ok M /\
      matrix_at m (mkView (sq_at v + Z.to_nat k * (Z.to_nat (sq_nr v) * Z.to_nat (sq_nc v)))
                          (Z.to_nat (sq_nr v)) (Z.to_nat (sq_nc v))) M.
  (* the window has positive sizes, and its number of elements is an int *)
  Definition window_ok (v : sview) : Prop :=
    0 <= sq_N v /\ 0 < sq_nr v /\ 0 < sq_nc v /\ in_int (sq_N v * sq_nr v * sq_nc v) = true.

  Lemma load_vector m s : vector_at m s (load m s).
  Proof. split; [apply load_len|]. intros i Hi. apply load_at. exact Hi. Qed.
  Lemma load_matrix m v : matrix_at m v (load_mat m v).
  Proof.
    split; [reflexivity|]. split; [reflexivity|]. intros i j Hi Hj. unfold mget, load_mat. cbn [mr mc me].
    rewrite load_at by (cbn [sp_len]; nia). reflexivity.
  Qed.
  Lemma load_sequence m v : window_ok v -> sequence_at m v (load_seq m v).
  Proof.
    intros (H1 & H2 & H3 & H4). split; [reflexivity|]. intros k Hk.
    assert (N0 : 0 <= sq_N v * sq_nr v * sq_nc v) by nia.
    set (mem := load m (mkSpan (sq_at v) (Z.to_nat (sq_N v * sq_nr v * sq_nc v)))).
    assert (L : length mem = Z.to_nat (sq_N v * sq_nr v * sq_nc v)) by (unfold mem; rewrite load_len; reflexivity).
    destruct (view_entry O mem (sq_N v) (sq_nr v) (sq_nc v) k 0 0 H2 H3 H4) as (M & EV & M1 & M2 & _);
      [lia|unfold entry_of; lia|].
    exists M. split.
    - unfold mapseq_at, load_seq. cbn [mp_N mp_mem mp_nr mp_nc].
      replace ((k <? 0) || (sq_N v <=? k)) with false
        by (symmetry; rewrite orb_false_iff, Z.ltb_ge, Z.leb_gt; lia). exact EV.
    - unfold matrix_at. cbn [mv_at mv_r mv_c]. split; [lia|]. split; [lia|]. intros i j Hi Hj.
      assert (En : entry_of (sq_N v) (sq_nr v) (sq_nc v) k (Z.of_nat i) (Z.of_nat j)) by (unfold entry_of; lia).
      pose proof (address_range _ _ _ _ _ _ En) as AR.
      destruct (view_entry O mem (sq_N v) (sq_nr v) (sq_nc v) k (Z.of_nat i) (Z.of_nat j) H2 H3 H4) as (M' & EV' & _ & _ & ME);
        [lia|exact En|].
      rewrite EV in EV'. injection EV' as <-. rewrite !Nat2Z.id in ME. rewrite ME.
      change (nth ?a mem (o_zero O)) with (vget O mem a). unfold mem. rewrite load_at by (cbn [sp_len]; lia).
      cbn [sp_at]. f_equal. unfold address.
      rewrite !Z2Nat.inj_add by nia. rewrite !Z2Nat.inj_mul by nia. rewrite !Nat2Z.id. lia.
  Qed.

  (* the guess *)
  Theorem C61_guess_windows : forall (m : memory T) w,
    vector_at m (vv_z w) (v_z (load_var m w)) /\ vector_at m (vv_l w) (v_l (load_var m w)) /\
    vector_at m (vv_v w) (v_v (load_var m w)) /\ vector_at m (vv_y w) (v_y (load_var m w)).
  Proof. intros m w. unfold load_var. cbn [v_z v_l v_v v_y]. repeat split; try apply load_len; intros; apply load_at; assumption. Qed.

  (* a dense problem *)
  Theorem C61_dense_windows : forall (m : memory T) q, let p := load_dense m q in
    matrix_at m (dv_H q) (q_H p) /\ vector_at m (dv_f q) (q_f p) /\ matrix_at m (dv_G q) (q_G p) /\
    vector_at m (dv_h q) (q_h p) /\ matrix_at m (dv_A q) (q_A p) /\ vector_at m (dv_b q) (q_b p).
  Proof.
    intros m q p. unfold p, load_dense. cbn [q_H q_f q_G q_h q_A q_b].
    repeat match goal with |- _ /\ _ => split; [first [apply load_matrix|apply load_vector]|] end. apply load_vector.
  Qed.

  (* a control problem *)
  Theorem C61_mpc_windows : forall (m : memory T) q, let p := load_mpc m q in
    (forall v, In v [w_Q q; w_R q; w_S q; w_q q; w_r q; w_A q; w_B q; w_c q; w_E q; w_L q; w_d q] -> window_ok v) ->
    sequence_at m (w_Q q) (m_Q p) /\ sequence_at m (w_R q) (m_R p) /\ sequence_at m (w_S q) (m_S p) /\
    sequence_at m (w_q q) (m_q p) /\ sequence_at m (w_r q) (m_r p) /\ sequence_at m (w_A q) (m_A p) /\
    sequence_at m (w_B q) (m_B p) /\ sequence_at m (w_c q) (m_c p) /\ sequence_at m (w_E q) (m_E p) /\
    sequence_at m (w_L q) (m_L p) /\ sequence_at m (w_d q) (m_d p) /\ vector_at m (w_x0 q) (m_x0 p).
  Proof.
    intros m q p H. unfold p, load_mpc. cbn [m_Q m_R m_S m_q m_r m_A m_B m_c m_E m_L m_d m_x0].
    repeat match goal with |- _ /\ _ => split; [apply load_sequence, H; cbn; tauto|] end. apply load_vector.
  Qed.
  (* a problem in memory is valid in the sense of C19 and C20 exactly if its windows are *)
  Theorem C61_windows_valid : forall (m : memory T) q,
    (forall v, In v [w_Q q; w_R q; w_S q; w_q q; w_r q; w_A q; w_B q; w_c q; w_E q; w_L q; w_d q] -> window_ok v) <->
    seqs_valid (load_mpc m q).
  Proof.
    intros m q.
    assert (K : forall v, window_ok v <-> seq_valid (load_seq m v)).
    { intro v. unfold window_ok, seq_valid, load_seq. cbn [mp_N mp_nr mp_nc mp_mem]. split.
      - intros (A & B & C & E). do 3 (split; [assumption|]). split; [exact E|]. intros _. eexists. split; [reflexivity|].
        rewrite load_len. cbn [sp_len]. lia.
      - intros (A & B & C & E & _). repeat split; assumption. }
    split.
    - intro H. constructor; cbn [load_mpc m_Q m_R m_S m_q m_r m_A m_B m_c m_E m_L m_d]; apply K, H; cbn; tauto.
    - intros [? ? ? ? ? ? ? ? ? ? ?] v Hv. cbn [load_mpc m_Q m_R m_S m_q m_r m_A m_B m_c m_E m_L m_d] in *.
      apply K. cbn in Hv. intuition (subst; assumption).
  Qed.
End Windows.
