(* Proofs about the example generator: what CopyOverHorizon stores. *)
From Verif Require Export OcpGen Api.
Local Open Scope res_scope.

Section Fill.
  Context {T : Type} (O : Ops T).
  Lemma concat_seq_length m (f : nat -> list T) : forall n s, (forall k, s <= k < s + n -> length (f k) = m) ->
    length (concat (map f (seq s n))) = n * m.
  Proof.
    induction n as [|n IH]; intros s H; [reflexivity|]. cbn [seq map concat]. rewrite app_length, H, IH; [lia| |lia].
    intros k Hk. apply H. lia.
  Qed.
  Lemma concat_block m (f : nat -> list T) k : forall n s, (forall k, s <= k < s + n -> length (f k) = m) -> k < n ->
    firstn m (skipn (k * m) (concat (map f (seq s n)))) = f (s + k).
  Proof.
    induction k as [|k IH]; intros [|n] s H Hk; try lia; cbn [seq map concat].
    - rewrite Nat.mul_0_l, Nat.add_0_r. cbn [skipn]. rewrite <- (H s) by lia. rewrite firstn_app, Nat.sub_diag, firstn_all.
      cbn. apply app_nil_r.
    - rewrite skipn_app. rewrite (skipn_all2 (f s)) by (rewrite H by lia; cbn; lia). cbn [app].
      rewrite H by lia. replace (S k * m - m) with (k * m) by (cbn; lia).
      rewrite IH; [f_equal; lia| |lia]. intros j Hj. apply H. lia.
  Qed.

  (* the first m of n blocks are the matrices F k, the rest is zero *)
  Definition filled (s : mseq T) (n r c : nat) (F : nat -> mat T) (m : nat) : Prop :=
    (ms_N s = Z.of_nat n /\ ms_nr s = Z.of_nat r /\ ms_nc s = Z.of_nat c /\
     ms_nel s = Z.of_nat n * Z.of_nat r * Z.of_nat c)%Z /\
    (1 <= r /\ 1 <= c /\ in_int (Z.of_nat n * Z.of_nat r * Z.of_nat c) = true) /\
    (forall k, mr (F k) = r /\ mc (F k) = c /\ length (me (F k)) = r * c) /\
    ms_data s = concat (tab m (fun k => me (F k))) ++ repeat (o_zero O) ((n - m) * (r * c)).

  Lemma in_int_le a b : (0 <= a <= b)%Z -> in_int b = true -> in_int a = true.
  Proof. unfold in_int, int_min, int_max. rewrite !andb_true_iff, !Z.leb_le. lia. Qed.
  Lemma imul_fits a b : in_int (a * b) = true -> imul a b = Ok (a * b)%Z.
  Proof. intro H. unfold imul. rewrite H. reflexivity. Qed.
  Lemma iadd_fits a b : in_int (a + b) = true -> iadd a b = Ok (a + b)%Z.
  Proof. intro H. unfold iadd. rewrite H. reflexivity. Qed.

  Lemma filled_new n r c F : 1 <= r -> 1 <= c -> in_int (Z.of_nat n * Z.of_nat r * Z.of_nat c) = true ->
    (forall k, mr (F k) = r /\ mc (F k) = c /\ length (me (F k)) = r * c) ->
    exists s, mseq_new O (Z.of_nat n) (Z.of_nat r) (Z.of_nat c) = Ok s /\ filled s n r c F 0.
  Proof.
    intros Hr Hc HI HF. unfold mseq_new.
    replace (Z.of_nat n <? 0)%Z with false by (symmetry; apply Z.ltb_ge; lia).
    replace ((Z.of_nat r <=? 0) || (Z.of_nat c <=? 0))%Z with false
      by (symmetry; rewrite orb_false_iff, !Z.leb_gt; lia).
    cbn [negb throw_unless rbind].
    rewrite imul_fits by (eapply in_int_le; [|exact HI]; nia). cbn [rbind]. rewrite imul_fits by exact HI. cbn [rbind].
    eexists. split; [reflexivity|]. split; [repeat split|]. split; [auto|]. split; [exact HF|].
    cbn [ms_data tab seq map concat app].
    f_equal. rewrite <- !Nat2Z.inj_mul, Nat2Z.id, Nat.sub_0_r. lia.
  Qed.
  Lemma filled_step s n r c F m : filled s n r c F m -> m < n ->
    exists s', mseq_store s (Z.of_nat m) (F m) = Ok s' /\ filled s' n r c F (S m).
  Proof.
    intros ((E1 & E2 & E3 & E4) & (Hr & Hc & HI) & HF & ED) Hm. destruct (HF m) as (B1 & B2 & B3).
    assert (LC : length (concat (tab m (fun k => me (F k)))) = m * (r * c)).
    { unfold tab. apply concat_seq_length. intros k _. apply HF. }
    unfold mseq_store. rewrite E1, E2, E3.
    replace ((Z.of_nat m <? 0) || (Z.of_nat n <=? Z.of_nat m))%Z with false
      by (symmetry; rewrite orb_false_iff, Z.ltb_ge, Z.leb_gt; lia).
    cbn [negb throw_unless rbind].
    assert (M0 : (0 <= Z.of_nat m * Z.of_nat r <= Z.of_nat n * Z.of_nat r)%Z) by nia.
    rewrite imul_fits by (eapply in_int_le; [|exact HI]; nia). cbn [rbind].
    rewrite imul_fits by (eapply in_int_le; [|exact HI]; nia). cbn [rbind].
    rewrite B1, B2, !Z.eqb_refl. unfold mat_ok. rewrite B1, B2, B3, Nat.eqb_refl. cbn [andb ub_unless rbind].
    replace (Z.to_nat (Z.of_nat m * Z.of_nat r * Z.of_nat c)) with (m * (r * c))
      by (rewrite <- !Nat2Z.inj_mul, Nat2Z.id; lia).
    rewrite ED, app_length, LC, repeat_length.
    assert (LE : m * (r * c) + r * c <= m * (r * c) + (n - m) * (r * c)) by nia.
    apply Nat.leb_le in LE. rewrite LE. cbn [ub_unless rbind].
    eexists. split; [reflexivity|]. split; [cbn; auto|]. split; [auto|]. split; [exact HF|]. cbn [ms_data].
    rewrite firstn_app, LC, Nat.sub_diag. cbn [firstn]. rewrite <- LC at 1. rewrite firstn_all, app_nil_r.
    rewrite skipn_app, LC, skipn_all2 by (rewrite LC; lia). cbn [app].
    replace (m * (r * c) + r * c - m * (r * c)) with (r * c) by lia.
    unfold tab. rewrite seq_S, map_app, concat_app. cbn [map concat Nat.add]. rewrite app_nil_r, <- app_assoc. f_equal. f_equal.
    replace ((n - m) * (r * c)) with (r * c + (n - S m) * (r * c)) by nia.
    rewrite repeat_app, skipn_app, repeat_length, Nat.sub_diag. cbn [skipn]. rewrite skipn_all2 by (rewrite repeat_length; lia).
    reflexivity.
  Qed.
  Lemma filled_at s n r c F k : filled s n r c F n -> k < n -> mseq_at s (Z.of_nat k) = Ok (F k).
  Proof.
    intros ((E1 & E2 & E3 & E4) & (Hr & Hc & HI) & HF & ED) Hk. unfold mseq_at. rewrite E1, E2, E3.
    replace ((Z.of_nat k <? 0) || (Z.of_nat n <=? Z.of_nat k))%Z with false
      by (symmetry; rewrite orb_false_iff, Z.ltb_ge, Z.leb_gt; lia).
    cbn [negb throw_unless rbind]. unfold view.
    assert (M0 : (0 <= Z.of_nat k * Z.of_nat r <= Z.of_nat n * Z.of_nat r)%Z) by nia.
    rewrite imul_fits by (eapply in_int_le; [|exact HI]; nia). cbn [rbind].
    rewrite imul_fits by (eapply in_int_le; [|exact HI]; nia). cbn [rbind].
    replace (Z.to_nat (Z.of_nat k * Z.of_nat r * Z.of_nat c)) with (k * (r * c))
      by (rewrite <- !Nat2Z.inj_mul, Nat2Z.id; lia). rewrite !Nat2Z.id.
    rewrite ED, Nat.sub_diag. cbn [Nat.mul repeat]. rewrite app_nil_r.
    assert (LC : length (concat (tab n (fun k => me (F k)))) = n * (r * c)).
    { unfold tab. apply concat_seq_length. intros j _. apply HF. }
    rewrite LC. assert (LE : k * (r * c) + r * c <= n * (r * c)) by nia. apply Nat.leb_le in LE. rewrite LE.
    cbn [ub_unless rbind]. unfold tab. rewrite (concat_block (r * c) (fun k => me (F k)) k n 0) by (intros; auto; apply HF).
    cbn [Nat.add]. destruct (HF k) as (B1 & B2 & _). destruct (F k); cbn in *. subst. reflexivity.
  Qed.
  Lemma filled_valid s n r c F : filled s n r c F n -> seq_valid (map_of_mseq s).
  Proof.
    intros ((E1 & E2 & E3 & E4) & (Hr & Hc & HI) & HF & ED). unfold seq_valid, map_of_mseq. cbn [mp_N mp_nr mp_nc mp_mem].
    rewrite E1, E2, E3. split; [lia|]. split; [lia|]. split; [lia|]. split; [exact HI|]. intros _. eexists. split; [reflexivity|].
    rewrite ED, app_length. unfold tab. rewrite (concat_seq_length (r * c)) by (intros; apply HF). lia.
  Qed.
  Lemma filled_cell s n r c F k i j : filled s n r c F n -> k < n -> i < r -> j < c ->
    nth (k * (r * c) + j * r + i) (ms_data s) (o_zero O) = mget O (F k) i j.
  Proof.
    intros ((E1 & E2 & E3 & E4) & (Hr & Hc & HI) & HF & ED) Hk Hi Hj.
    pose proof (concat_block (r * c) (fun k => me (F k)) k n 0 (fun j _ => proj2 (proj2 (HF j))) Hk) as E. cbn [Nat.add] in E.
    destruct (HF k) as (B1 & B2 & B3). unfold mget, vget. rewrite B1, <- E, ED, Nat.sub_diag. cbn [Nat.mul repeat].
    rewrite app_nil_r. unfold tab.
    assert (j * r + i < r * c) by nia. 
    rewrite <- (firstn_skipn (k * (r * c)) (concat _)) at 1. 
    rewrite app_nth2; rewrite firstn_length, (concat_seq_length (r * c)) by (intros; apply HF);
      (replace (min (k * (r * c)) (n * (r * c))) with (k * (r * c)) by nia); [|lia].
    replace (k * (r * c) + j * r + i - k * (r * c)) with (j * r + i) by lia.
    rewrite <- (firstn_skipn (r * c) (skipn (k * (r * c)) _)) at 1.
    rewrite app_nth1; [reflexivity|]. rewrite E, B3. assumption.
  Qed.

  (* ---------- the loops ---------- *)
  (* matrices of compatible sizes, and a horizon whose sequences have sizes in the range of int *)
  Definition mat_is (M : mat T) (r c : nat) : Prop := mr M = r /\ mc M = c /\ length (me M) = r * c.
  Record stage_sizes (st : stage T) (nx nu nc : nat) : Prop := {
    ss_Q : mat_is (s_Q st) nx nx; ss_R : mat_is (s_R st) nu nu; ss_S : mat_is (s_S st) nu nx;
    ss_q : length (s_q st) = nx; ss_r : length (s_r st) = nu; ss_A : mat_is (s_A st) nx nx;
    ss_B : mat_is (s_B st) nx nu; ss_c : length (s_c st) = nx; ss_E : mat_is (s_E st) nc nx;
    ss_L : mat_is (s_L st) nc nu; ss_d : length (s_d st) = nc; ss_x0 : length (s_x0 st) = nx }.
  Definition stage_E (st : stage T) (k : nat) : mat T :=
    if k =? 0 then mzero O (mr (s_E st)) (mc (s_E st)) else s_E st.
  Record holds_stages (p : mpc_own T) (st : stage T) (n nx nu nc : nat) (m : nat) : Prop := {
    hs_Q : filled (o_Q p) n nx nx (fun _ => s_Q st) m; hs_R : filled (o_R p) n nu nu (fun _ => s_R st) m;
    hs_S : filled (o_S p) n nu nx (fun _ => s_S st) m; hs_q : filled (o_q p) n nx 1 (fun _ => colmat (s_q st)) m;
    hs_r : filled (o_r p) n nu 1 (fun _ => colmat (s_r st)) m; hs_E : filled (o_E p) n nc nx (stage_E st) m;
    hs_L : filled (o_L p) n nc nu (fun _ => s_L st) m; hs_d : filled (o_d p) n nc 1 (fun _ => colmat (s_d st)) m }.
  Record holds_dynamics (p : mpc_own T) (st : stage T) (n nx nu : nat) (m : nat) : Prop := {
    hd_A : filled (o_A p) n nx nx (fun _ => s_A st) m; hd_B : filled (o_B p) n nx nu (fun _ => s_B st) m;
    hd_c : filled (o_c p) n nx 1 (fun _ => colmat (s_c st)) m }.

  Lemma stage_loop st n nx nu nc n' : forall j m p, holds_stages p st n nx nu nc m -> holds_dynamics p st n' nx nu 0 ->
    m + j = n -> exists p', for_from j m (copy_stage O st) p = Ok p' /\ holds_stages p' st n nx nu nc n /\
      holds_dynamics p' st n' nx nu 0 /\ o_x0 p' = o_x0 p.
  Proof.
    induction j as [|j IH]; intros m p H D E; cbn [for_from].
    - exists p. replace n with m by lia. replace m with n in H at 2 by lia. replace n with m in H at 1 by lia. auto.
    - destruct H as [H1 H2 H3 H4 H5 H6 H7 H8].
      destruct (filled_step _ _ _ _ _ _ H1 ltac:(lia)) as (q1 & G1 & F1).
      destruct (filled_step _ _ _ _ _ _ H2 ltac:(lia)) as (q2 & G2 & F2).
      destruct (filled_step _ _ _ _ _ _ H3 ltac:(lia)) as (q3 & G3 & F3).
      destruct (filled_step _ _ _ _ _ _ H4 ltac:(lia)) as (q4 & G4 & F4).
      destruct (filled_step _ _ _ _ _ _ H5 ltac:(lia)) as (q5 & G5 & F5).
      destruct (filled_step _ _ _ _ _ _ H6 ltac:(lia)) as (q6 & G6 & F6).
      destruct (filled_step _ _ _ _ _ _ H7 ltac:(lia)) as (q7 & G7 & F7).
      destruct (filled_step _ _ _ _ _ _ H8 ltac:(lia)) as (q8 & G8 & F8).
      unfold copy_stage at 1. rewrite G1, G2, G3, G4, G5. cbn [rbind]. unfold stage_E in G6. rewrite G6, G7, G8. cbn [rbind].
      destruct (IH (S m) (mkMO q1 q2 q3 q4 q5 (o_A p) (o_B p) (o_c p) q6 q7 q8 (o_x0 p))) as (p' & R1 & R2 & R3 & R4).
      + constructor; assumption.
      + destruct D. constructor; assumption.
      + lia.
      + exists p'. auto.
  Qed.
  Lemma dynamics_loop st n nx nu nc n' : forall j m p, holds_dynamics p st n nx nu m -> holds_stages p st n' nx nu nc n' ->
    m + j = n -> exists p', for_from j m (copy_dynamics st) p = Ok p' /\ holds_dynamics p' st n nx nu n /\
      holds_stages p' st n' nx nu nc n' /\ o_x0 p' = o_x0 p.
  Proof.
    induction j as [|j IH]; intros m p H D E; cbn [for_from].
    - exists p. replace n with m by lia. replace m with n in H at 2 by lia. replace n with m in H at 1 by lia. auto.
    - destruct H as [H1 H2 H3].
      destruct (filled_step _ _ _ _ _ _ H1 ltac:(lia)) as (q1 & G1 & F1).
      destruct (filled_step _ _ _ _ _ _ H2 ltac:(lia)) as (q2 & G2 & F2).
      destruct (filled_step _ _ _ _ _ _ H3 ltac:(lia)) as (q3 & G3 & F3).
      unfold copy_dynamics at 1. rewrite G1, G2, G3. cbn [rbind].
      destruct (IH (S m) (mkMO (o_Q p) (o_R p) (o_S p) (o_q p) (o_r p) q1 q2 q3 (o_E p) (o_L p) (o_d p) (o_x0 p))) as (p' & R1 & R2 & R3 & R4).
      + constructor; assumption.
      + destruct D. constructor; assumption.
      + lia.
      + exists p'. auto.
  Qed.
End Fill.
