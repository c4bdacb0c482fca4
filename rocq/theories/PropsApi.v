(* Size validation, absence of undefined behaviour, exception safety of the public API
   (C12, C17, C18, C19, C20), for any arithmetic with 0 == 0. *)
From Verif Require Export Spec.
Local Open Scope nat_scope.

(* ---------- specification ---------- *)

(* The sizes FBstabDense(nz,nl,nv)::Solve documents, y excepted. *)
Record dense_sizes {T} (nz nl nv : nat) (qp : dense_qp T) (x : var T) : Prop := {
  dz_H : mr (q_H qp) = nz /\ mc (q_H qp) = nz; dz_f : length (q_f qp) = nz;
  dz_G : mr (q_G qp) = nl /\ mc (q_G qp) = nz; dz_h : length (q_h qp) = nl;
  dz_A : mr (q_A qp) = nv /\ mc (q_A qp) = nz; dz_b : length (q_b qp) = nv;
  dz_x : length (v_z x) = nz /\ length (v_l x) = nl /\ length (v_v x) = nv }.

(* a sequence of n matrices with r rows and c columns *)
Definition seq_size {T} (s : mapseq T) (n r c : Z) : Prop := mp_N s = n /\ mp_nr s = r /\ mp_nc s = c.
Definition seq_rows {T} (s : mapseq T) (n r : Z) : Prop := mp_N s = n /\ mp_nr s = r.

(* The sizes FBstabMpc(N,nx,nu,nc)::Solve documents; the columns of q,r,c,d excepted. *)
Record mpc_sizes {T} (N nx nu nc : Z) (qp : mpc_ref T) (x : var T) : Prop := {
  mz_Q : seq_size (m_Q qp) (N + 1) nx nx; mz_R : seq_size (m_R qp) (N + 1) nu nu;
  mz_S : seq_size (m_S qp) (N + 1) nu nx; mz_q : seq_rows (m_q qp) (N + 1) nx;
  mz_r : seq_rows (m_r qp) (N + 1) nu; mz_A : seq_size (m_A qp) N nx nx;
  mz_B : seq_size (m_B qp) N nx nu; mz_c : seq_rows (m_c qp) N nx;
  mz_E : seq_size (m_E qp) (N + 1) nc nx; mz_L : seq_size (m_L qp) (N + 1) nc nu;
  mz_d : seq_rows (m_d qp) (N + 1) nc; mz_x0 : Z.of_nat (length (m_x0 qp)) = nx;
  mz_x : Z.of_nat (length (v_z x)) = ((N + 1) * (nx + nu))%Z /\
         Z.of_nat (length (v_l x)) = ((N + 1) * nx)%Z /\
         Z.of_nat (length (v_v x)) = ((N + 1) * nc)%Z /\
         Z.of_nat (length (v_y x)) = ((N + 1) * nc)%Z }.

(* the total number of variables of the data fits an int (it is computed as one) *)
Definition mpc_fits {T} (qp : mpc_ref T) : Prop :=
  in_int (mp_N (m_Q qp) * (mp_nr (m_Q qp) + mp_nr (m_R qp))) = true.

(* a call that was rejected without any effect on the solver or the caller *)
Definition rejected {T S} (s : S) (x : var T) (res : S * solve_result T) : Prop :=
  exists e, (e = EDataSize \/ e = EInputSize) /\ res = (s, mkSR (Throw e) x [] []).

Definition size_error (e : err) : bool :=
  match e with ESaturate | ESigma | EInitFailed => false | _ => true end.

(* the caller's variables with another y *)
Definition with_y {T} (x : var T) (y : list T) : var T := mkVar (v_z x) (v_l x) (v_v x) y.

Section Api.
  Context {T : Type} (O : Ops T) (LA : LinAlg T).
  Hypothesis zero_eq : o_eqb O (o_zero O) (o_zero O) = true.

  (* an accepted call never reports a size problem *)
  Lemma accepted_errors D (DI : DataI T D) d nz nl nv o x el r e :
    solve_call O LA D DI d nz nl nv o x el r -> sr_out r = Throw e -> size_error e = false.
  Proof.
    intros call E.
    destruct (call_desc_ex O LA zero_eq _ _ _ _ _ _ _ _ _ _ call) as (pinit & pst & stale & w & CD).
    pose proof (call_exit O _ _ _ _ _ _ _ _ _ _ _ _ _ CD) as EX. rewrite E in EX.
    destruct EX as [_ [(-> & _)|(_ & _ & [(-> & _)|(_ & H)])]]; try reflexivity.
    revert H. unfold pb_newton, prob_of, pnewton.
    rewrite (cd_init _ _ _ _ _ _ _ _ _ _ _ _ _ _ CD).
    destruct (o_leb O (p_sigma0 o) (o_zero O)); [intros [= <-]; reflexivity|].
    destruct (unres true _); [discriminate|]. intros [= <-]. reflexivity.
  Qed.
  Lemma accepted_noub D (DI : DataI T D) d nz nl nv o x el r u :
    solve_call O LA D DI d nz nl nv o x el r -> sr_out r <> UB u.
  Proof.
    intros call E.
    destruct (call_desc_ex O LA zero_eq _ _ _ _ _ _ _ _ _ _ call) as (pinit & pst & stale & w & CD).
    pose proof (call_exit O _ _ _ _ _ _ _ _ _ _ _ _ _ CD) as EX. rewrite E in EX. exact EX.
  Qed.
  Lemma accepted_throw_x D (DI : DataI T D) d nz nl nv o x el r e :
    solve_call O LA D DI d nz nl nv o x el r -> sr_out r = Throw e -> sr_x r = x.
  Proof.
    intros call E.
    destruct (call_desc_ex O LA zero_eq _ _ _ _ _ _ _ _ _ _ call) as (pinit & pst & stale & w & CD).
    pose proof (call_exit O _ _ _ _ _ _ _ _ _ _ _ _ _ CD) as EX. rewrite E in EX. apply EX.
  Qed.

  (* ---------- dense ---------- *)
  Lemma andb2 a b c e : (a =? b) && (c =? e) = true <-> a = b /\ c = e.
  Proof. rewrite andb_true_iff, !Nat.eqb_eq. reflexivity. Qed.

  (* a dense call is rejected, or accepted *)
  Lemma dense_cases nz nl nv s qp k x el : dense_reach O LA nz nl nv s ->
    (~ dense_sizes (Z.to_nat nz) (Z.to_nat nl) (Z.to_nat nv) qp x /\
     rejected s x (FBstabDense_Solve O LA s qp k x el)) \/
    (dense_sizes (Z.to_nat nz) (Z.to_nat nl) (Z.to_nat nv) qp x /\
     exists d, DenseData_ctor O (Some (q_H qp)) (Some (q_f qp)) (Some (q_G qp)) (Some (q_h qp))
                     (Some (q_A qp)) (Some (q_b qp)) = Ok d /\ dense_validate s d x = Ok tt).
  Proof.
    intro Hr. pose proof (dense_reach_inv _ _ _ _ _ _ Hr) as (E1 & E2 & E3 & P1 & P2 & P3 & _).
    unfold FBstabDense_Solve, rejected. unfold DenseData_ctor at 1 2. cbn [arg rbind].
    destruct ((mr (q_H qp) =? mc (q_H qp)) && (mr (q_H qp) =? length (q_f qp))) eqn:C1;
      cbn [throw_unless rbind].
    2:{ left. split; [|eauto]. intros [[A1 A2] A3 _ _ _ _ _].
        rewrite (proj2 (andb2 _ _ _ _)) in C1 by (split; congruence). discriminate. }
    destruct ((mc (q_A qp) =? mr (q_H qp)) && (mr (q_A qp) =? length (q_b qp))) eqn:C2;
      cbn [throw_unless rbind].
    2:{ left. split; [|eauto]. intros [[A1 A2] A3 _ _ [B1 B2] B3 _].
        rewrite (proj2 (andb2 _ _ _ _)) in C2 by (split; congruence). discriminate. }
    destruct ((mc (q_G qp) =? mr (q_H qp)) && (mr (q_G qp) =? length (q_h qp))) eqn:C3;
      cbn [throw_unless rbind].
    2:{ left. split; [|eauto]. intros [[A1 A2] A3 [B1 B2] B3 _ _ _].
        rewrite (proj2 (andb2 _ _ _ _)) in C3 by (split; congruence). discriminate. }
    apply andb2 in C1, C2, C3.
    set (d := mkDD _ _ _ _ _ _ _ _ _ _). unfold dense_validate at 1.
    rewrite E1, E2, E3.
    destruct ((nz =? Z.of_nat (dd_nz d))%Z && (nv =? Z.of_nat (dd_nv d))%Z && (nl =? Z.of_nat (dd_nl d))%Z) eqn:C4;
      cbn [throw_unless rbind].
    2:{ left. split; [|eauto]. intros [[A1 A2] A3 [B1 B2] B3 [F1 F2] F3 _].
        assert (X : ((nz =? Z.of_nat (dd_nz d))%Z && (nv =? Z.of_nat (dd_nv d))%Z && (nl =? Z.of_nat (dd_nl d))%Z) = true).
        { rewrite !andb_true_iff, !Z.eqb_eq. cbn. lia. }
        rewrite X in C4. discriminate. }
    destruct ((nz =? Z.of_nat (length (v_z x)))%Z && (Z.of_nat (length (v_l x)) =? nl)%Z &&
              (nv =? Z.of_nat (length (v_v x)))%Z) eqn:C5; cbn [throw_unless rbind].
    2:{ left. split; [|eauto]. intros [_ _ _ _ _ _ (G1 & G2 & G3)].
        assert (X : ((nz =? Z.of_nat (length (v_z x)))%Z && (Z.of_nat (length (v_l x)) =? nl)%Z &&
              (nv =? Z.of_nat (length (v_v x)))%Z) = true).
        { rewrite !andb_true_iff, !Z.eqb_eq. lia. }
        rewrite X in C5. discriminate. }
    right. rewrite !andb_true_iff, !Z.eqb_eq in C4, C5. cbn [d dd_nz dd_nl dd_nv] in C4.
    split.
    - constructor; lia.
    - exists d. split; [reflexivity|].
      unfold dense_validate. rewrite E1, E2, E3.
      replace (_ && _ && _)%Z with true by (symmetry; rewrite !andb_true_iff, !Z.eqb_eq; cbn [d dd_nz dd_nl dd_nv]; lia).
      cbn [throw_unless rbind].
      replace (_ && _ && _)%Z with true by (symmetry; rewrite !andb_true_iff, !Z.eqb_eq; lia).
      reflexivity.
  Qed.

  (* ---------------------------------------------------------------- C17 *)
  Theorem C17_dense_ctor : forall g nz nl nv,
    if ((nz <=? 0) || (nv <=? 0) || (nl <? 0))%Z
    then FBstabDense_new O g nz nl nv = Throw ECtorSize
    else exists s, FBstabDense_new O g nz nl nv = Ok s /\ ds_options s = DefaultParameters O.
  Proof.
    intros g nz nl nv. unfold FBstabDense_new.
    destruct ((nz <=? 0) || (nv <=? 0) || (nl <? 0))%Z eqn:E; [reflexivity|].
    cbn [negb throw_unless rbind]. unfold FullVariable_ctor, FullResidual_ctor, FullFeasibility_ctor, DenseCholeskySolver_ctor.
    rewrite E. replace ((nz <=? 0) || (nl <? 0) || (nv <=? 0))%Z with false
      by (rewrite <- E; destruct (nz <=? 0)%Z, (nl <? 0)%Z, (nv <=? 0)%Z; reflexivity).
    cbn [negb throw_unless rbind]. eexists. split; reflexivity.
  Qed.

  Theorem C17_dense_size_validation : forall nz nl nv s qp k x el,
    dense_reach O LA nz nl nv s ->
    let result := FBstabDense_Solve O LA s qp k x el in
    (~ dense_sizes (Z.to_nat nz) (Z.to_nat nl) (Z.to_nat nv) qp x -> rejected s x result) /\
    (dense_sizes (Z.to_nat nz) (Z.to_nat nl) (Z.to_nat nv) qp x -> y_fits k x (Z.to_nat nv) ->
       forall e, sr_out (snd result) = Throw e -> size_error e = false).
  Proof.
    intros nz nl nv s qp k x el Hr. cbv zeta.
    destruct (dense_cases nz nl nv s qp k x el Hr) as [[NS R]|[DS (d & Hc & Hv)]].
    - split; [auto|]. intro; contradiction.
    - split; [intro; contradiction|]. intros _ Hy e E.
      eapply accepted_errors; [|exact E]. eapply sc_dense; eauto.
  Qed.

  (* ---------------------------------------------------------------- C12, dense *)
  Theorem C12_dense_exception_safety : forall nz nl nv s qp k x el e,
    dense_reach O LA nz nl nv s -> y_fits k x (Z.to_nat nv) ->
    sr_out (snd (FBstabDense_Solve O LA s qp k x el)) = Throw e ->
    sr_x (snd (FBstabDense_Solve O LA s qp k x el)) = x.
  Proof.
    intros nz nl nv s qp k x el e Hr Hy E.
    destruct (dense_cases nz nl nv s qp k x el Hr) as [[NS (e' & _ & R)]|[DS (d & Hc & Hv)]].
    - rewrite R. reflexivity.
    - eapply accepted_throw_x; [|exact E]. eapply sc_dense; eauto.
  Qed.

  (* ---------------------------------------------------------------- C20, dense *)
  Theorem C20_dense_no_ub : forall nz nl nv s qp k x el u,
    dense_reach O LA nz nl nv s -> y_fits k x (Z.to_nat nv) ->
    sr_out (snd (FBstabDense_Solve O LA s qp k x el)) <> UB u.
  Proof.
    intros nz nl nv s qp k x el u Hr Hy E.
    destruct (dense_cases nz nl nv s qp k x el Hr) as [[NS (e' & _ & R)]|[DS (d & Hc & Hv)]].
    - rewrite R in E. discriminate.
    - eapply accepted_noub; [|exact E]. eapply sc_dense; eauto.
  Qed.

  (* ---------------------------------------------------------------- C18 *)
  (* what y holds on entry never matters; on a normal return it holds nv entries *)
  Theorem C18_dense_y_ignored : forall nz nl nv s qp k x y el,
    dense_reach O LA nz nl nv s ->
    y_fits k x (Z.to_nat nv) -> y_fits k (with_y x y) (Z.to_nat nv) ->
    let r1 := snd (FBstabDense_Solve O LA s qp k x el) in
    let r2 := snd (FBstabDense_Solve O LA s qp k (with_y x y) el) in
    sr_out r1 = sr_out r2 /\ sr_log r1 = sr_log r2 /\
    match sr_out r1 with
    | Ok _ => sr_x r1 = sr_x r2 /\ length (v_y (sr_x r1)) = Z.to_nat nv
    | _ => sr_x r1 = x /\ sr_x r2 = with_y x y
    end.
  Proof.
    intros nz nl nv s qp k x y el Hr Hy Hy2. cbv zeta.
    destruct (DenseData_ctor O (Some (q_H qp)) (Some (q_f qp)) (Some (q_G qp)) (Some (q_h qp))
                     (Some (q_A qp)) (Some (q_b qp))) as [d|e|u] eqn:EC.
    2,3: unfold FBstabDense_Solve; rewrite EC; cbn [snd sr_out sr_log sr_x]; auto.
    destruct (dense_validate s d x) as [[]|e|u] eqn:EV.
    2,3: unfold FBstabDense_Solve; rewrite EC;
         change (dense_validate s d (with_y x y)) with (dense_validate s d x); rewrite EV;
         cbn [snd sr_out sr_log sr_x]; auto.
    pose proof (dense_reach_inv _ _ _ _ _ _ Hr) as Hi.
    destruct (dense_call O LA nz nl nv s qp d k x el Hi EC EV Hy) as (_ & -> & NU & VO & _).
    destruct (dense_call O LA nz nl nv s qp d k (with_y x y) el Hi EC EV Hy2) as (_ & -> & _ & _ & _).
    match goal with |- context [psolve O ?o ?pb ?a ?b ?c el ?st ?w (with_y x y)] =>
      change (psolve O o pb a b c el st w (with_y x y)) with (psolve O o pb a b c el st w x) end.
    destruct (psolve _ _ _ _ _ _ _ _ _ x) as [[lg tr] [[out xw]|e|u]]; cbn [presult sr_out sr_log sr_x]; auto.
    split; [reflexivity|]. split; [reflexivity|]. split; [reflexivity|].
    apply (VO out xw eq_refl).
  Qed.

  (* a mapped y of another size: exactly the calls that would have returned normally write
     outside the caller's vector; the calls that throw are unaffected *)
  Theorem C18_dense_mapped_y : forall nz nl nv s qp x y el,
    dense_reach O LA nz nl nv s ->
    length (v_y x) <> Z.to_nat nv -> length y = Z.to_nat nv ->
    let bad := snd (FBstabDense_Solve O LA s qp Mapped x el) in
    let good := snd (FBstabDense_Solve O LA s qp Mapped (with_y x y) el) in
    sr_x bad = x /\
    match sr_out good with
    | Ok _ => sr_out bad = UB UBSize
    | Throw e => sr_out bad = Throw e
    | UB _ => False
    end.
  Proof.
    intros nz nl nv s qp x y el Hr Hb Hy. cbv zeta.
    pose proof (fun u => C20_dense_no_ub nz nl nv s qp Mapped (with_y x y) el u Hr Hy) as NU.
    destruct (DenseData_ctor O (Some (q_H qp)) (Some (q_f qp)) (Some (q_G qp)) (Some (q_h qp))
                     (Some (q_A qp)) (Some (q_b qp))) as [d|e|u] eqn:EC.
    2,3: unfold FBstabDense_Solve in NU |- *; rewrite EC in NU |- *; cbn [snd sr_out sr_x] in *; auto.
    2: { destruct (NU u eq_refl). }
    destruct (dense_validate s d x) as [[]|e|u] eqn:EV.
    2,3: unfold FBstabDense_Solve in NU |- *; rewrite EC in NU |- *;
         change (dense_validate s d (with_y x y)) with (dense_validate s d x) in *; rewrite EV in NU |- *;
         cbn [snd sr_out sr_x] in *; auto.
    2: { destruct (NU u eq_refl). }
    clear NU. pose proof (dense_reach_inv _ _ _ _ _ _ Hr) as Hi.
    destruct (dense_call O LA nz nl nv s qp d Mapped (with_y x y) el Hi EC EV Hy) as (Hok & -> & NU & _ & _).
    destruct (dense_validate_ok _ _ _ _ _ _ Hi EV) as (D1 & D2 & D3 & (G1 & G2 & G3)).
    pose proof Hi as (E1 & E2 & E3 & P1 & P2 & P3 & Hast).
    assert (Hq : 0 < Z.to_nat nv) by lia.
    destruct (call_bad O (denseDI O) (denseLS O LA) d (Z.to_nat nz) (Z.to_nat nl) (Z.to_nat nv)
                (dense_data_ok O d _ _ _ Hok) (dense_ls_ok O LA d _ _ _ Hok) Hq (ds_options s) el
                (ds_alg s) x Hast eq_refl (conj G1 (conj G2 (conj G3 Hb)))) as (B1 & B2 & B3).
    revert B1 B2 B3 NU. unfold FBstabDense_Solve. rewrite EC, EV.
    destruct (call_solve O (denseDI O) (denseLS O LA) (ds_alg s) d Mapped x el) as [a r]. cbn [snd].
    match goal with |- context [psolve O ?o ?pb ?a ?b ?c el ?st ?w (with_y x y)] =>
      change (psolve O o pb a b c el st w (with_y x y)) with (psolve O o pb a b c el st w x) end.
    intros B1 B2 B3 NU.
    destruct (psolve _ _ _ _ _ _ _ _ _ x) as [[lg tr] [[out xw]|e|u]]; cbn [presult sr_out snd is_ub] in *; auto.
    discriminate.
  Qed.

  (* ---------- MPC ---------- *)
  Lemma for_total {A} (body : nat -> A -> res A) n : forall i (a : A),
    (forall j a', i <= j < i + n -> exists b, body j a' = Ok b) -> exists b, for_from n i body a = Ok b.
  Proof.
    induction n as [|n IH]; intros i a H; cbn [for_from]; [eauto|].
    destruct (H i a) as [b ->]; [lia|]. cbn [rbind]. apply IH. intros j a' Hj. apply H. lia.
  Qed.

  Lemma seq_valid_at (s : mapseq T) k : seq_valid s -> (Z.of_nat k < mp_N s)%Z -> exists m, at_ s k = Ok m.
  Proof.
    intros V Hk. pose proof V as (V1 & V2 & V3 & _).
    destruct (seq_valid_sok s (Z.to_nat (mp_N s)) (Z.to_nat (mp_nr s)) (Z.to_nat (mp_nc s)) V) with (k := k)
      as (m & E & _); try lia. eauto.
  Qed.

  Definition mpc_consistent (qp : mpc_ref T) : Prop :=
    exists N nx nu nc, (1 <= N + 1)%Z /\ 
      seq_size (m_Q qp) (N + 1) nx nx /\ seq_size (m_R qp) (N + 1) nu nu /\
      seq_size (m_S qp) (N + 1) nu nx /\ seq_rows (m_q qp) (N + 1) nx /\
      seq_rows (m_r qp) (N + 1) nu /\ seq_size (m_A qp) N nx nx /\
      seq_size (m_B qp) N nx nu /\ seq_rows (m_c qp) N nx /\
      seq_size (m_E qp) (N + 1) nc nx /\ seq_size (m_L qp) (N + 1) nc nu /\
      seq_rows (m_d qp) (N + 1) nc /\ Z.of_nat (length (m_x0 qp)) = nx.

  Lemma validate_cases (qp : mpc_ref T) :
    (mpc_validate qp = Ok tt /\ mpc_consistent qp) \/
    (mpc_validate qp = Throw EDataSize /\ ~ mpc_consistent qp).
  Proof.
    destruct (mpc_validate qp) as [[]|e|u] eqn:E.
    - left. split; [reflexivity|]. unfold mpc_validate in E.
      repeat (apply rbind_ok in E; let a := fresh "a" in let F := fresh "F" in
            destruct E as (a & F & E); destruct a; apply throw_ok in F).
      apply throw_ok in E. rewrite ?andb_true_iff, ?Z.eqb_eq in *.
      apply negb_true_iff, Z.leb_gt in F.
      exists (mp_N (m_Q qp) - 1)%Z, (mp_nr (m_Q qp)), (mp_nr (m_R qp)), (mp_nr (m_E qp)).
      unfold seq_size, seq_rows. repeat split; lia.
    - right. unfold mpc_validate in E. split.
      + f_equal. repeat match type of E with
          | rbind (throw_unless ?b _) _ = _ => destruct b; cbn [throw_unless rbind] in E; [|congruence]
          end. unfold throw_unless in E. destruct (_ =? _)%Z; congruence.
      + intros (N & nx & nu & nc & PN & H). unfold seq_size, seq_rows in H.
        destruct H as ((Q1 & Q2 & Q3) & (R1 & R2 & R3) & (S1 & S2 & S3) & (q1 & q2) & (r1 & r2) &
           (A1 & A2 & A3) & (B1 & B2 & B3) & (c1 & c2) & (E1 & E2 & E3) & (L1 & L2 & L3) & (d1 & d2) & X).
        rewrite Q1, Q2, Q3, R1, R2, R3, S1, S2, S3, q1, q2, r1, r2, A1, A2, A3, B1, B2, B3, c1, c2, E1, E2, E3,
                L1, L2, L3, d1, d2, X in E.
        replace (N + 1 <=? 0)%Z with false in E by (symmetry; apply Z.leb_gt; lia).
        replace (N + 1 - 1)%Z with N in E by lia.
        rewrite !Z.eqb_refl in E. discriminate.
    - exfalso. unfold mpc_validate in E.
      repeat match type of E with
          | rbind (throw_unless ?b _) _ = _ => destruct b; cbn [throw_unless rbind] in E; [|congruence]
          end. unfold throw_unless in E. destruct (_ =? _)%Z; congruence.
  Qed.

  Lemma in_int_le a b : (0 <= a <= b)%Z -> in_int b = true -> in_int a = true.
  Proof. unfold in_int, int_min, int_max. rewrite !andb_true_iff, !Z.leb_le. lia. Qed.

  Lemma ctor_total qp : seqs_valid qp -> mpc_fits qp -> mpc_consistent qp ->
    exists d, MpcData_ctor O qp = Ok d.
  Proof.
    intros V F C. destruct (validate_cases qp) as [[E _]|[_ NC]]; [|contradiction].
    destruct C as (N & nx & nu & nc & PN & H). unfold seq_size, seq_rows in H.
    destruct H as ((Q1 & Q2 & Q3) & (R1 & R2 & R3) & (S1 & S2 & S3) & (q1 & q2) & (r1 & r2) &
           (A1 & A2 & A3) & (B1 & B2 & B3) & (c1 & c2) & (E1 & E2 & E3) & (L1 & L2 & L3) & (d1 & d2) & X).
    unfold mpc_fits in F. rewrite Q1, Q2, R2 in F.
    destruct V as [VQ VR VS Vq Vr VA VB Vc VE VL Vd].
    pose proof VQ as (_ & PX & _). rewrite Q2 in PX.
    pose proof VR as (_ & PU & _). rewrite R2 in PU.
    pose proof VE as (_ & PC & _ & IE & _). rewrite E2 in PC; rewrite E1, E2, E3 in IE.
    unfold MpcData_ctor. rewrite E. cbn [rbind]. rewrite B1, B2, B3, E2.
    assert (I1 : in_int (N + 1) = true) by (eapply in_int_le; [|exact F]; nia).
    assert (I2 : in_int (nx + nu) = true) by (eapply in_int_le; [|exact F]; nia).
    assert (I3 : in_int ((N + 1) * nx) = true) by (eapply in_int_le; [|exact F]; nia).
    assert (I4 : in_int ((N + 1) * nc) = true) by (eapply in_int_le; [|exact IE]; nia).
    unfold iadd, imul. rewrite I1. cbn [rbind]. rewrite I2. cbn [rbind]. rewrite F, I3. cbn [rbind].
    rewrite I4. cbn [rbind].
    unfold for_n.
    match goal with |- context [for_from ?n ?i ?b ?a] => destruct (for_total b n i a) as [sum ES] end.
    { intros j a Hj.
      destruct (seq_valid_at (m_q qp) j Vq) as [mq ->]; [lia|]. cbn [rbind].
      destruct (seq_valid_at (m_r qp) j Vr) as [mr ->]; [lia|]. cbn [rbind].
      destruct (seq_valid_at (m_d qp) j Vd) as [md ->]; [lia|]. cbn [rbind].
      destruct (Nat.eqb_spec j 0); [eauto|].
      destruct (seq_valid_at (m_c qp) (j - 1) Vc) as [mc ->]; [lia|]. cbn [rbind]. eauto. }
    rewrite ES. cbn [rbind]. eauto.
  Qed.

  Lemma mpc_cases N nx nu nc s qp k x el :
    mpc_reach O LA N nx nu nc s -> seqs_valid qp -> single_columns qp -> mpc_fits qp ->
    (~ mpc_sizes N nx nu nc qp x /\ rejected s x (FBstabMpc_Solve O LA s qp k x el)) \/
    (mpc_sizes N nx nu nc qp x /\
     exists d, MpcData_ctor O qp = Ok d /\ mpc_validate_inputs s d x = Ok tt).
  Proof.
    intros Hr Hs Hc Hf.
    pose proof (mpc_reach_inv _ _ zero_eq _ _ _ _ _ Hr) as (E1 & E2 & E3 & E4 & E5 & E6 & E7 & P1 & P2 & P3 & P4 & _).
    unfold FBstabMpc_Solve, rejected.
    destruct (validate_cases qp) as [[EV CS]|[EV NC]].
    2:{ left. unfold MpcData_ctor at 1. rewrite EV. cbn [rbind]. split; [|eauto].
        intros [? ? ? ? ? ? ? ? ? ? ? ? ?]. apply NC. exists N, nx, nu, nc. split; [lia|]. auto 20. }
    destruct (ctor_total qp Hs Hf CS) as [d Ed]. rewrite Ed.
    destruct (mpc_ctor_ok O qp d Hs Hc Ed) as (_ & _ & D1 & D2 & D3 & D4).
    destruct CS as (N' & nx' & nu' & nc' & PN & H).
    pose proof H as HH. unfold seq_size, seq_rows in HH.
    destruct HH as ((Q1 & Q2 & Q3) & (R1 & R2 & R3) & (S1 & S2 & S3) & (q1 & q2) & (r1 & r2) &
           (A1 & A2 & A3) & (B1 & B2 & B3) & (c1 & c2) & (F1 & F2 & F3) & (L1 & L2 & L3) & (d1 & d2) & X).
    rewrite B1 in D1. rewrite B2 in D2. rewrite B3 in D3. rewrite F2 in D4.
    unfold mpc_validate_inputs at 1. rewrite D1, D2, D3, D4, E1, E2, E3, E4, E5, E6, E7.
    destruct ((N' =? N) && (nx' =? nx) && (nu' =? nu) && (nc' =? nc))%Z eqn:C1; cbn [throw_unless rbind].
    2:{ left. split; [|eauto]. intros [Z1 Z2 Z3 Z4 Z5 Z6 Z7 Z8 Z9 Z10 Z11 Z12 Z13].
        assert (Y : ((N' =? N) && (nx' =? nx) && (nu' =? nu) && (nc' =? nc))%Z = true).
        { unfold seq_size, seq_rows in *. rewrite !andb_true_iff, !Z.eqb_eq. lia. }
        rewrite Y in C1. discriminate. }
    rewrite !andb_true_iff, !Z.eqb_eq in C1. destruct C1 as (((-> & ->) & ->) & ->).
    destruct ((Z.of_nat (length (v_z x)) =? (N + 1) * (nx + nu)) &&
              (Z.of_nat (length (v_l x)) =? (N + 1) * nx) &&
              (Z.of_nat (length (v_v x)) =? (N + 1) * nc) &&
              (Z.of_nat (length (v_y x)) =? (N + 1) * nc))%Z eqn:C2; cbn [throw_unless rbind].
    2:{ left. split; [|eauto]. intros [Z1 Z2 Z3 Z4 Z5 Z6 Z7 Z8 Z9 Z10 Z11 Z12 (Z13 & Z14 & Z15 & Z16)].
        rewrite Z13, Z14, Z15, Z16, !Z.eqb_refl in C2. discriminate. }
    right. pose proof C2 as C3. rewrite !andb_true_iff, !Z.eqb_eq in C2.
    destruct H as (H1 & H2 & H3 & H4 & H5 & H6 & H7 & H8 & H9 & H10 & H11 & H12).
    split; [constructor; auto; repeat split; apply C2|].
    exists d. split; [reflexivity|].
    unfold mpc_validate_inputs. rewrite D1, D2, D3, D4, E1, E2, E3, E4, E5, E6, E7, !Z.eqb_refl, C3. reflexivity.
  Qed.

  (* ---------------------------------------------------------------- C19 *)
  (* the constructor computes the total sizes in int arithmetic *)
  Theorem C19_mpc_ctor : forall g N nx nu nc,
    if ((N <? 1) || (nx <? 1) || (nu <? 1) || (nc <? 1))%Z
    then FBstabMpc_new O g N nx nu nc = Throw ECtorSize
    else if in_int ((N + 1) * (nx + nu)) && in_int ((N + 1) * nc)
    then exists s, FBstabMpc_new O g N nx nu nc = Ok s /\ mps_options s = DefaultParameters O
    else FBstabMpc_new O g N nx nu nc = UB UBOverflow.
  Proof.
    intros g N nx nu nc. unfold FBstabMpc_new.
    destruct ((N <? 1) || (nx <? 1) || (nu <? 1) || (nc <? 1))%Z eqn:E; [reflexivity|].
    cbn [negb throw_unless rbind].
    assert (P := E). rewrite !orb_false_iff, !Z.ltb_ge in P.
    assert (IA : forall a b, in_int (a + b) = true -> iadd a b = Ok (a + b)%Z) by (intros a b H; unfold iadd; rewrite H; reflexivity).
    assert (IM : forall a b, in_int (a * b) = true -> imul a b = Ok (a * b)%Z) by (intros a b H; unfold imul; rewrite H; reflexivity).
    assert (UA : forall a b, in_int (a + b) = false -> iadd a b = UB UBOverflow) by (intros a b H; unfold iadd; rewrite H; reflexivity).
    assert (UM : forall a b, in_int (a * b) = false -> imul a b = UB UBOverflow) by (intros a b H; unfold imul; rewrite H; reflexivity).
    destruct (in_int ((N + 1) * (nx + nu))) eqn:I1.
    2:{ cbn [andb]. destruct (in_int (N + 1)) eqn:K1; [rewrite (IA _ _ K1)|rewrite (UA _ _ K1); reflexivity]. cbn [rbind].
        destruct (in_int (nx + nu)) eqn:K2; [rewrite (IA _ _ K2)|rewrite (UA _ _ K2); reflexivity]. cbn [rbind].
        rewrite UM by (rewrite Z.mul_comm; exact I1). reflexivity. }
    assert (J1 : in_int (N + 1) = true) by (eapply in_int_le; [|exact I1]; nia).
    assert (J2 : in_int (nx + nu) = true) by (eapply in_int_le; [|exact I1]; nia).
    assert (J3 : in_int ((N + 1) * nx) = true) by (eapply in_int_le; [|exact I1]; nia).
    rewrite (IA _ _ J1), (IA _ _ J2). cbn [rbind].
    rewrite IM by (rewrite Z.mul_comm; exact I1). cbn [rbind].
    rewrite IM by (rewrite Z.mul_comm; exact J3). cbn [rbind andb].
    destruct (in_int ((N + 1) * nc)) eqn:I2.
    2:{ rewrite UM by (rewrite Z.mul_comm; exact I2). reflexivity. }
    rewrite IM by (rewrite Z.mul_comm; exact I2). cbn [rbind].
    unfold FullVariable_ctor, FullResidual_ctor, FullFeasibility_ctor, RiccatiLinearSolver_ctor.
    replace ((((nx + nu) * (N + 1) <=? 0) || (nx * (N + 1) <? 0) || (nc * (N + 1) <=? 0)))%Z with false
      by (symmetry; rewrite !orb_false_iff, !Z.leb_gt, Z.ltb_ge; nia).
    replace ((((nx + nu) * (N + 1) <=? 0) || (nc * (N + 1) <=? 0) || (nx * (N + 1) <? 0)))%Z with false
      by (symmetry; rewrite !orb_false_iff, !Z.leb_gt, Z.ltb_ge; nia).
    replace ((N <=? 0) || (nx <=? 0) || (nu <=? 0) || (nc <=? 0))%Z with false
      by (symmetry; rewrite !orb_false_iff, !Z.leb_gt; lia).
    cbn [negb throw_unless rbind].
    rewrite (IA _ _ J1), (IA _ _ J2). cbn [rbind].
    rewrite (IM _ _ I1), (IM _ _ J3), (IM _ _ I2). cbn [rbind].
    eexists. split; reflexivity.
  Qed.

  Theorem C19_mpc_size_validation : forall N nx nu nc s qp k x el,
    mpc_reach O LA N nx nu nc s -> seqs_valid qp -> single_columns qp -> mpc_fits qp ->
    let result := FBstabMpc_Solve O LA s qp k x el in
    (~ mpc_sizes N nx nu nc qp x -> rejected s x result) /\
    (mpc_sizes N nx nu nc qp x ->
       forall e, sr_out (snd result) = Throw e -> size_error e = false).
  Proof.
    intros N nx nu nc s qp k x el Hr Hs Hc Hf. cbv zeta.
    destruct (mpc_cases N nx nu nc s qp k x el Hr Hs Hc Hf) as [[NS R]|[DS (d & Hd & Hv)]].
    - split; [auto|]. intro; contradiction.
    - split; [intro; contradiction|]. intros _ e E.
      eapply accepted_errors; [|exact E]. eapply sc_mpc; eauto.
  Qed.

  (* ---------------------------------------------------------------- C12, MPC *)
  Theorem C12_mpc_exception_safety : forall N nx nu nc s qp k x el e,
    mpc_reach O LA N nx nu nc s -> seqs_valid qp -> single_columns qp -> mpc_fits qp ->
    sr_out (snd (FBstabMpc_Solve O LA s qp k x el)) = Throw e ->
    sr_x (snd (FBstabMpc_Solve O LA s qp k x el)) = x.
  Proof.
    intros N nx nu nc s qp k x el e Hr Hs Hc Hf E.
    destruct (mpc_cases N nx nu nc s qp k x el Hr Hs Hc Hf) as [[NS (e' & _ & R)]|[DS (d & Hd & Hv)]].
    - rewrite R. reflexivity.
    - eapply accepted_throw_x; [|exact E]. eapply sc_mpc; eauto.
  Qed.

  (* ---------------------------------------------------------------- C20, MPC *)
  Theorem C20_mpc_no_ub : forall N nx nu nc s qp k x el u,
    mpc_reach O LA N nx nu nc s -> seqs_valid qp -> single_columns qp -> mpc_fits qp ->
    sr_out (snd (FBstabMpc_Solve O LA s qp k x el)) <> UB u.
  Proof.
    intros N nx nu nc s qp k x el u Hr Hs Hc Hf E.
    destruct (mpc_cases N nx nu nc s qp k x el Hr Hs Hc Hf) as [[NS (e' & _ & R)]|[DS (d & Hd & Hv)]].
    - rewrite R in E. discriminate.
    - eapply accepted_noub; [|exact E]. eapply sc_mpc; eauto.
  Qed.
End Api.
