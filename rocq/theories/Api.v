(* The public API: reachable solver objects, accepted Solve calls, and the fact that every
   accepted call computes [psolve]. *)
From Verif Require Export DenseOk RiccatiOk ParamsProofs RefineShared RefineStream.

(* ---------- caller obligations ---------- *)

(* an Eigen::Map cannot be resized, so a mapped y must have the right length *)
Definition y_fits {T} (k : vkind) (x : var T) (nv : nat) : Prop :=
  match k with Owned => True | Mapped => length (v_y x) = nv end.

(* a matrix sequence view as its constructors make it, over memory that is really there *)
Definition seq_valid {T} (s : mapseq T) : Prop :=
  (0 <= mp_N s)%Z /\ (0 < mp_nr s)%Z /\ (0 < mp_nc s)%Z /\
  in_int (mp_N s * mp_nr s * mp_nc s) = true /\
  ((0 < mp_N s)%Z -> exists mem, mp_mem s = Some mem /\
     (mp_N s * mp_nr s * mp_nc s <= Z.of_nat (length mem))%Z).

Record seqs_valid {T} (m : mpc_ref T) : Prop := {
  sv_Q : seq_valid (m_Q m); sv_R : seq_valid (m_R m); sv_S : seq_valid (m_S m);
  sv_q : seq_valid (m_q m); sv_r : seq_valid (m_r m); sv_A : seq_valid (m_A m);
  sv_B : seq_valid (m_B m); sv_c : seq_valid (m_c m); sv_E : seq_valid (m_E m);
  sv_L : seq_valid (m_L m); sv_d : seq_valid (m_d m) }.

(* q, r, c, d are sequences of column vectors *)
Definition single_columns {T} (m : mpc_ref T) : Prop :=
  mp_nc (m_q m) = 1%Z /\ mp_nc (m_r m) = 1%Z /\ mp_nc (m_c m) = 1%Z /\ mp_nc (m_d m) = 1%Z.

(* the four iteration limits admit at least one step each *)
Definition limits_ok {T} (o : params T) : Prop :=
  (1 <= p_max_newton o)%Z /\ (1 <= p_max_prox o)%Z /\ (1 <= p_max_inner o)%Z /\ (1 <= p_max_ls o)%Z.

Lemma update_limits {T} (O : Ops T) cur o p : UpdateParameters O cur o = Ok p -> limits_ok p.
Proof.
  unfold UpdateParameters, ValidateOptions. intro H.
  repeat match type of H with rbind ?m ?f = Ok ?b => destruct m; cbn [rbind] in H; [|discriminate H|discriminate H] end.
  injection H as <-. unfold limits_ok; cbn. lia.
Qed.
Lemma default_limits {T} (O : Ops T) : limits_ok (DefaultParameters O).
Proof. unfold limits_ok; cbn; lia. Qed.

(* ---------- reachable solver objects ---------- *)
Section Reach.
  Context {T : Type} (O : Ops T) (LA : LinAlg T).

  (* any history of UpdateOptions and Solve calls on one FBstabDense(nz,nl,nv) object, with any
     content of its uninitialised memory; the histories include calls that threw, calls on
     caller memory in which the problem data and the solution may overlap, and calls with the
     caller's own output stream, whose Print may throw at any message *)
  Inductive dense_reach (nz nl nv : Z) : dense_solver T -> Prop :=
  | dr_new g s : FBstabDense_new O g nz nl nv = Ok s -> dense_reach nz nl nv s
  | dr_update s o : dense_reach nz nl nv s ->
      dense_reach nz nl nv (fst (FBstabDense_UpdateOptions O s o))
  | dr_solve s qp k x el : dense_reach nz nl nv s -> y_fits k x (Z.to_nat nv) ->
      dense_reach nz nl nv (fst (FBstabDense_Solve O LA s qp k x el))
  | dr_solve_ref s m q w el : dense_reach nz nl nv s -> sp_len (vv_y w) = Z.to_nat nv ->
      dense_reach nz nl nv (fst (FBstabDense_SolveRef O LA s m q w el))
  | dr_solve_on acc s qp k x el : dense_reach nz nl nv s -> y_fits k x (Z.to_nat nv) ->
      dense_reach nz nl nv (fst (FBstabDense_SolveOn O LA acc s qp k x el))
  | dr_solve_ref_on acc s m q w el : dense_reach nz nl nv s -> sp_len (vv_y w) = Z.to_nat nv ->
      dense_reach nz nl nv (fst (FBstabDense_SolveRefOn O LA acc s m q w el)).

  Inductive mpc_reach (N nx nu nc : Z) : mpc_solver T -> Prop :=
  | mr_new g s : FBstabMpc_new O g N nx nu nc = Ok s -> mpc_reach N nx nu nc s
  | mr_update s o : mpc_reach N nx nu nc s ->
      mpc_reach N nx nu nc (fst (FBstabMpc_UpdateOptions O s o))
  | mr_solve s qp k x el : mpc_reach N nx nu nc s -> seqs_valid qp -> single_columns qp ->
      mpc_reach N nx nu nc (fst (FBstabMpc_Solve O LA s qp k x el))
  | mr_solve_ref s m q w el : mpc_reach N nx nu nc s -> seqs_valid (load_mpc m q) ->
      single_columns (load_mpc m q) ->
      mpc_reach N nx nu nc (fst (FBstabMpc_SolveRef O LA s m q w el))
  | mr_solve_on acc s qp k x el : mpc_reach N nx nu nc s -> seqs_valid qp -> single_columns qp ->
      mpc_reach N nx nu nc (fst (FBstabMpc_SolveOn O LA acc s qp k x el))
  | mr_solve_ref_on acc s m q w el : mpc_reach N nx nu nc s -> seqs_valid (load_mpc m q) ->
      single_columns (load_mpc m q) ->
      mpc_reach N nx nu nc (fst (FBstabMpc_SolveRefOn O LA acc s m q w el)).

  (* An accepted Solve call (sizes fine, so the algorithm runs) with its result.  The indices
     are: the data class, the data object, the sizes, the options in force, the caller's
     guess, the clock, the result. *)
  Inductive solve_call : forall D : Type, DataI T D -> D -> nat -> nat -> nat ->
      params T -> var T -> T -> solve_result T -> Prop :=
  | sc_dense nz nl nv s qp d k x el :
      dense_reach nz nl nv s ->
      DenseData_ctor O (Some (q_H qp)) (Some (q_f qp)) (Some (q_G qp)) (Some (q_h qp))
                       (Some (q_A qp)) (Some (q_b qp)) = Ok d ->
      dense_validate s d x = Ok tt -> y_fits k x (Z.to_nat nv) ->
      solve_call (dense_data T) (denseDI O) d (Z.to_nat nz) (Z.to_nat nl) (Z.to_nat nv)
        (ds_options s) x el (snd (FBstabDense_Solve O LA s qp k x el))
  | sc_mpc N nx nu nc s qp d k x el :
      mpc_reach N nx nu nc s -> seqs_valid qp -> single_columns qp ->
      MpcData_ctor O qp = Ok d -> mpc_validate_inputs s d x = Ok tt ->
      solve_call (mpc_data T) (mpcDI O) d (Z.to_nat (mps_nz s)) (Z.to_nat (mps_nl s))
        (Z.to_nat (mps_nv s)) (mps_options s) x el (snd (FBstabMpc_Solve O LA s qp k x el)).

  (* ---------- well-formedness of reachable objects ---------- *)
  Definition dense_inv (nz nl nv : Z) (s : dense_solver T) : Prop :=
    ds_nz s = nz /\ ds_nl s = nl /\ ds_nv s = nv /\ (0 < nz)%Z /\ (0 <= nl)%Z /\ (0 < nv)%Z /\
    ast_ok (Z.to_nat nz) (Z.to_nat nl) (Z.to_nat nv)
           (d_lsize (Z.to_nat nz) (Z.to_nat nl) (Z.to_nat nv)) (ds_alg s).

  Lemma throw_ok b e : throw_unless b e = Ok tt -> b = true.
  Proof. destruct b; [reflexivity|discriminate]. Qed.

  Lemma rbind_ok {A B} (m : res A) (f : A -> res B) b :
    rbind m f = Ok b -> exists a, m = Ok a /\ f a = Ok b.
  Proof. destruct m; cbn; try discriminate. eauto. Qed.

  Lemma dense_ctor_ok qp d :
    DenseData_ctor O (Some (q_H qp)) (Some (q_f qp)) (Some (q_G qp)) (Some (q_h qp))
                     (Some (q_A qp)) (Some (q_b qp)) = Ok d ->
    dense_ok d (dd_nz d) (dd_nl d) (dd_nv d) /\
    dd_H d = q_H qp /\ dd_f d = q_f qp /\ dd_G d = q_G qp /\ dd_h d = q_h qp /\
    dd_A d = q_A qp /\ dd_b d = q_b qp.
  Proof.
    unfold DenseData_ctor. cbn [arg rbind]. intro H.
    destruct ((mr (q_H qp) =? mc (q_H qp)) && (mr (q_H qp) =? length (q_f qp))) eqn:E1; [|discriminate].
    destruct ((mc (q_A qp) =? mr (q_H qp)) && (mr (q_A qp) =? length (q_b qp))) eqn:E2; [|discriminate].
    destruct ((mc (q_G qp) =? mr (q_H qp)) && (mr (q_G qp) =? length (q_h qp))) eqn:E3; [|discriminate].
    cbn [throw_unless rbind] in H. injection H as <-.
    apply andb_true_iff in E1, E2, E3. rewrite !Nat.eqb_eq in E1, E2, E3.
    split; [|auto 10]. constructor; cbn; intuition congruence.
  Qed.

  Lemma dense_new_inv g nz nl nv s : FBstabDense_new O g nz nl nv = Ok s ->
    dense_inv nz nl nv s /\ ds_options s = DefaultParameters O.
  Proof.
    unfold FBstabDense_new. intro H.
    apply rbind_ok in H. destruct H as ([] & E0 & H). apply throw_ok in E0.
    apply negb_true_iff in E0. rewrite !orb_false_iff in E0. destruct E0 as [[E1 E2] E3].
    rewrite Z.leb_gt in E1, E2. rewrite Z.ltb_ge in E3.
    unfold FullVariable_ctor, FullResidual_ctor, FullFeasibility_ctor, DenseCholeskySolver_ctor in H.
    assert (B : ((nz <=? 0) || (nv <=? 0) || (nl <? 0))%Z = false)
      by (rewrite !orb_false_iff, !Z.leb_gt, Z.ltb_ge; auto).
    assert (B' : ((nz <=? 0) || (nl <? 0) || (nv <=? 0))%Z = false)
      by (rewrite !orb_false_iff, !Z.leb_gt, Z.ltb_ge; auto).
    rewrite B, B' in H. cbn [negb throw_unless rbind] in H. injection H as <-.
    split; [|reflexivity].
    unfold dense_inv; cbn [ds_nz ds_nl ds_nv ds_alg].
    repeat (split; [auto; fail|]).
    unfold ast_ok, fv_ok, fr_ok, ff_ok, var_ok, rsd_ok, ws_ok, FBstabAlgorithm_ctor, d_lsize; cbn.
    autorewrite with vlen. repeat split; reflexivity.
  Qed.

  Lemma dense_update_inv nz nl nv s o : dense_inv nz nl nv s ->
    dense_inv nz nl nv (fst (FBstabDense_UpdateOptions O s o)).
  Proof.
    unfold FBstabDense_UpdateOptions. destruct (UpdateParameters O _ o); auto.
  Qed.

  Lemma dense_validate_ok nz nl nv s d x : dense_inv nz nl nv s ->
    dense_validate s d x = Ok tt ->
    dd_nz d = Z.to_nat nz /\ dd_nl d = Z.to_nat nl /\ dd_nv d = Z.to_nat nv /\
    guess_ok (Z.to_nat nz) (Z.to_nat nl) (Z.to_nat nv) x.
  Proof.
    intros (E1 & E2 & E3 & P1 & P2 & P3 & _). unfold dense_validate. rewrite E1, E2, E3. intro H.
    apply rbind_ok in H. destruct H as ([] & A & B). apply throw_ok in A, B.
    rewrite !andb_true_iff, !Z.eqb_eq in A, B. unfold guess_ok. repeat split; lia.
  Qed.

  (* what an accepted dense Solve call computes *)
  Lemma dense_call nz nl nv s qp d k x el :
    dense_inv nz nl nv s ->
    DenseData_ctor O (Some (q_H qp)) (Some (q_f qp)) (Some (q_G qp)) (Some (q_h qp))
                     (Some (q_A qp)) (Some (q_b qp)) = Ok d ->
    dense_validate s d x = Ok tt -> y_fits k x (Z.to_nat nv) ->
    let n := Z.to_nat nz in let p := Z.to_nat nl in let q := Z.to_nat nv in
    let o := ds_options s in
    let run := psolve O o (prob_of O (denseDI O) d n p q (d_pinit O LA d n p q) (d_pst O LA d n p q) o)
                      n p q el (stale_of O (ds_alg s)) (ws_of (ds_alg s)) x in
    dense_ok d n p q /\
    snd (FBstabDense_Solve O LA s qp k x el) = presult run x /\
    is_ub (snd run) = false /\ (forall out xw, snd run = Ok (out, xw) -> var_ok n p q xw) /\
    dense_inv nz nl nv (fst (FBstabDense_Solve O LA s qp k x el)) /\
    ds_options (fst (FBstabDense_Solve O LA s qp k x el)) = o.
  Proof.
    intros Hinv Hc Hv Hy. cbv zeta.
    destruct (dense_ctor_ok _ _ Hc) as [Hok _].
    destruct (dense_validate_ok _ _ _ _ _ _ Hinv Hv) as (D1 & D2 & D3 & G).
    rewrite D1, D2, D3 in Hok.
    pose proof Hinv as (E1 & E2 & E3 & P1 & P2 & P3 & Hast).
    assert (Hq : 0 < Z.to_nat nv) by lia.
    assert (Hw : writable (Z.to_nat nz) (Z.to_nat nl) (Z.to_nat nv) k x).
    { unfold writable. destruct k; [exact I|]. destruct G as (G1 & G2 & G3). cbn in Hy.
      unfold var_ok; auto. }
    destruct (call_ref O (denseDI O) (denseLS O LA) d (Z.to_nat nz) (Z.to_nat nl) (Z.to_nat nv)
                (dense_data_ok O d _ _ _ Hok) (dense_ls_ok O LA d _ _ _ Hok) Hq (ds_options s) k el
                (ds_alg s) x Hast eq_refl G Hw) as (s' & EC & A1 & A2 & A3 & A4).
    unfold FBstabDense_Solve. rewrite Hc, Hv, EC. cbn [fst snd].
    split; [exact Hok|]. split; [reflexivity|]. split; [exact A3|]. split; [exact A4|].
    split; [|exact A2].
    unfold dense_inv; cbn [ds_nz ds_nl ds_nv ds_alg]. auto 10.
  Qed.

  Lemma dense_solve_inv nz nl nv s qp k x el : dense_inv nz nl nv s -> y_fits k x (Z.to_nat nv) ->
    dense_inv nz nl nv (fst (FBstabDense_Solve O LA s qp k x el)) /\
    ds_options (fst (FBstabDense_Solve O LA s qp k x el)) = ds_options s.
  Proof.
    intros H Hy.
    destruct (DenseData_ctor O (Some (q_H qp)) (Some (q_f qp)) (Some (q_G qp)) (Some (q_h qp))
                     (Some (q_A qp)) (Some (q_b qp))) as [d|e|u] eqn:EC.
    2,3: unfold FBstabDense_Solve; rewrite EC; auto.
    destruct (dense_validate s d x) as [[]|e|u] eqn:EV.
    2,3: unfold FBstabDense_Solve; rewrite EC, EV; auto.
    apply (dense_call nz nl nv s qp d k x el H EC EV Hy).
  Qed.

  (* ---- calls on caller memory ---- *)
  Lemma load_length (m : memory T) sp : length (load m sp) = sp_len sp.
  Proof. unfold load. apply tab_length. Qed.

  Lemma reload_dense_ok m m' q d n p r :
    DenseData_ctor O (Some (q_H (load_dense m q))) (Some (q_f (load_dense m q)))
                     (Some (q_G (load_dense m q))) (Some (q_h (load_dense m q)))
                     (Some (q_A (load_dense m q))) (Some (q_b (load_dense m q))) = Ok d ->
    dense_ok d n p r -> dense_ok (reload_dense d q m') n p r.
  Proof.
    intros Hc [H1 H2 H3 H4 H5 H6 H7 H8 H9].
    destruct (dense_ctor_ok _ _ Hc) as (_ & E1 & E2 & E3 & E4 & E5 & E6).
    rewrite E1 in H1, H2. rewrite E3 in H3, H4. rewrite E5 in H5, H6. rewrite E2 in H7.
    rewrite E4 in H8. rewrite E6 in H9. cbn in *. rewrite load_length in H7, H8, H9.
    constructor; cbn; rewrite ?load_length; assumption.
  Qed.

  Lemma dense_call_ref nz nl nv s m q d w el :
    dense_inv nz nl nv s ->
    DenseData_ctor O (Some (q_H (load_dense m q))) (Some (q_f (load_dense m q)))
                     (Some (q_G (load_dense m q))) (Some (q_h (load_dense m q)))
                     (Some (q_A (load_dense m q))) (Some (q_b (load_dense m q))) = Ok d ->
    dense_validate s d (load_var m w) = Ok tt -> sp_len (vv_y w) = Z.to_nat nv ->
    let n := Z.to_nat nz in let p := Z.to_nat nl in let r := Z.to_nat nv in
    let o := ds_options s in
    let cl := closing O (denseDI O) n p r (pinit:=d_pinit O LA d n p r) (pst:=d_pst O LA d n p r) o
                      (fun y => reload_dense d q (store_var O m w y)) in
    let run := psolve_shared O o (prob_of O (denseDI O) d n p r (d_pinit O LA d n p r) (d_pst O LA d n p r) o)
                      cl n p r el (stale_of O (ds_alg s)) (ws_of (ds_alg s)) (load_var m w) in
    let sr := presult run (load_var m w) in
    snd (FBstabDense_SolveRef O LA s m q w el) =
      mkMres (sr_out sr) (store_var O m w (sr_x sr)) (sr_log sr) (sr_trace sr) /\
    is_ub (snd run) = false /\
    dense_inv nz nl nv (fst (FBstabDense_SolveRef O LA s m q w el)) /\
    ds_options (fst (FBstabDense_SolveRef O LA s m q w el)) = o.
  Proof.
    intros Hinv Hc Hv Hy. cbv zeta.
    destruct (dense_ctor_ok _ _ Hc) as [Hok _].
    destruct (dense_validate_ok _ _ _ _ _ _ Hinv Hv) as (D1 & D2 & D3 & G).
    rewrite D1, D2, D3 in Hok.
    pose proof Hinv as (E1 & E2 & E3 & P1 & P2 & P3 & Hast).
    assert (Hq : 0 < Z.to_nat nv) by lia.
    assert (Hw : writable (Z.to_nat nz) (Z.to_nat nl) (Z.to_nat nv) Mapped (load_var m w)).
    { unfold writable. destruct G as (G1 & G2 & G3).
      unfold var_ok. repeat (split; [assumption|]). cbn. rewrite load_length. exact Hy. }
    destruct (call_ref_shared O (denseDI O) (denseLS O LA) d (Z.to_nat nz) (Z.to_nat nl) (Z.to_nat nv)
                (dense_data_ok O d _ _ _ Hok) (dense_ls_ok O LA d _ _ _ Hok) Hq (ds_options s)
                (fun y => reload_dense d q (store_var O m w y))
                (fun y _ => dense_data_ok O _ _ _ _ (reload_dense_ok m _ q d _ _ _ Hc Hok))
                (fun _ _ _ => eq_refl) Mapped el
                (ds_alg s) (load_var m w) Hast eq_refl G Hw) as (s' & EC & A1 & A2 & A3 & A4).
    unfold FBstabDense_SolveRef. rewrite Hc, Hv, EC. cbn [fst snd].
    split; [reflexivity|]. split; [exact A3|].
    split; [|exact A2].
    unfold dense_inv; cbn [ds_nz ds_nl ds_nv ds_alg]. auto 10.
  Qed.

  Lemma dense_solve_ref_inv nz nl nv s m q w el : dense_inv nz nl nv s -> sp_len (vv_y w) = Z.to_nat nv ->
    dense_inv nz nl nv (fst (FBstabDense_SolveRef O LA s m q w el)) /\
    ds_options (fst (FBstabDense_SolveRef O LA s m q w el)) = ds_options s.
  Proof.
    intros H Hy.
    destruct (DenseData_ctor O (Some (q_H (load_dense m q))) (Some (q_f (load_dense m q)))
                     (Some (q_G (load_dense m q))) (Some (q_h (load_dense m q)))
                     (Some (q_A (load_dense m q))) (Some (q_b (load_dense m q)))) as [d|e|u] eqn:EC.
    2,3: unfold FBstabDense_SolveRef; rewrite EC; auto.
    destruct (dense_validate s d (load_var m w)) as [[]|e|u] eqn:EV.
    2,3: unfold FBstabDense_SolveRef; rewrite EC, EV; auto.
    apply (dense_call_ref nz nl nv s m q d w el H EC EV Hy).
  Qed.

  (* ---- calls with the caller's own output stream ---- *)
  (* how a result r' obtained with the stream relates to the one r without, x being the
     caller's variable before the call *)
  Definition stream_of (acc : list (event T) -> bool) (x : var T) (r r' : solve_result T) : Prop :=
    match refused acc [] (sr_log r) with
    | None => r' = r
    | Some m => sr_out r' = Throw EStream /\ sr_x r' = (if newton_summary m then sr_x r else x) /\
                sr_log r' = upto acc [] (sr_log r)
    end.

  Lemma stream_of_refl acc x r : sr_log r = [] -> stream_of acc x r r.
  Proof. unfold stream_of. intros ->. reflexivity. Qed.

  Lemma stream_of_run acc x run (r' : solve_result T) :
    match refused acc [] (fst (fst run)) with
    | None => r' = presult run x
    | Some m => sr_out r' = Throw EStream /\ sr_x r' = left_with m (snd run) x /\
                sr_log r' = upto acc [] (fst (fst run))
    end -> stream_of acc x (presult run x) r'.
  Proof.
    destruct run as [[lg tr] r]. unfold stream_of, presult, left_with. cbn [fst snd].
    destruct r as [[out xw]|e|u]; cbn [sr_log sr_x]; destruct (refused acc [] lg) as [m|]; auto;
      destruct (newton_summary m); auto.
  Qed.

  Lemma dense_call_on acc nz nl nv s qp d k x el :
    dense_inv nz nl nv s -> limits_ok (ds_options s) ->
    DenseData_ctor O (Some (q_H qp)) (Some (q_f qp)) (Some (q_G qp)) (Some (q_h qp))
                     (Some (q_A qp)) (Some (q_b qp)) = Ok d ->
    dense_validate s d x = Ok tt -> y_fits k x (Z.to_nat nv) ->
    stream_of acc x (snd (FBstabDense_Solve O LA s qp k x el)) (snd (FBstabDense_SolveOn O LA acc s qp k x el)) /\
    dense_inv nz nl nv (fst (FBstabDense_SolveOn O LA acc s qp k x el)) /\
    ds_options (fst (FBstabDense_SolveOn O LA acc s qp k x el)) = ds_options s.
  Proof.
    intros Hinv Hlim Hc Hv Hy.
    destruct (dense_call nz nl nv s qp d k x el Hinv Hc Hv Hy) as (Hok & -> & _).
    destruct (dense_validate_ok _ _ _ _ _ _ Hinv Hv) as (D1 & D2 & D3 & G).
    pose proof Hinv as (E1 & E2 & E3 & P1 & P2 & P3 & Hast).
    assert (Hq : 0 < Z.to_nat nv) by lia.
    assert (Hw : writable (Z.to_nat nz) (Z.to_nat nl) (Z.to_nat nv) k x).
    { unfold writable. destruct k; [exact I|]. destruct G as (G1 & G2 & G3). cbn in Hy.
      unfold var_ok; auto. }
    assert (HN : (0 < p_max_newton (ds_options s))%Z) by (destruct Hlim; lia).
    pose proof (call_ref_on O (denseDI O) (denseLS O LA) d (Z.to_nat nz) (Z.to_nat nl) (Z.to_nat nv)
                (dense_data_ok O d _ _ _ Hok) (dense_ls_ok O LA d _ _ _ Hok) Hq (ds_options s)
                (fun _ => d) (fun _ _ => dense_data_ok O d _ _ _ Hok) (fun _ _ _ => eq_refl) acc k el
                (ds_alg s) x Hast eq_refl G Hw HN) as X. cbv zeta in X.
    unfold FBstabDense_SolveOn. rewrite Hc, Hv.
    destruct (call_on _ _ _ _ _ _ _ _ _ _) as [s' r']. destruct X as (A1 & A2 & A3). cbn [fst snd].
    split; [apply stream_of_run; exact A3|]. split; [|exact A2].
    unfold dense_inv; cbn [ds_nz ds_nl ds_nv ds_alg]. auto 10.
  Qed.

  Lemma dense_solve_on_inv acc nz nl nv s qp k x el :
    dense_inv nz nl nv s -> limits_ok (ds_options s) -> y_fits k x (Z.to_nat nv) ->
    stream_of acc x (snd (FBstabDense_Solve O LA s qp k x el)) (snd (FBstabDense_SolveOn O LA acc s qp k x el)) /\
    dense_inv nz nl nv (fst (FBstabDense_SolveOn O LA acc s qp k x el)) /\
    ds_options (fst (FBstabDense_SolveOn O LA acc s qp k x el)) = ds_options s.
  Proof.
    intros H Hlim Hy.
    destruct (DenseData_ctor O (Some (q_H qp)) (Some (q_f qp)) (Some (q_G qp)) (Some (q_h qp))
                     (Some (q_A qp)) (Some (q_b qp))) as [d|e|u] eqn:EC.
    2,3: unfold FBstabDense_SolveOn, FBstabDense_Solve; rewrite EC; cbn [fst snd];
         split; [apply stream_of_refl; reflexivity|auto].
    destruct (dense_validate s d x) as [[]|e|u] eqn:EV.
    2,3: unfold FBstabDense_SolveOn, FBstabDense_Solve; rewrite EC, EV; cbn [fst snd];
         split; [apply stream_of_refl; reflexivity|auto].
    apply (dense_call_on acc nz nl nv s qp d k x el H Hlim EC EV Hy).
  Qed.

  (* on caller memory m, the variables being the spans w *)
  Definition stream_ref_of (acc : list (event T) -> bool) (m : memory T) (w : var_view) (r r' : mem_result T) : Prop :=
    match refused acc [] (me_log r) with
    | None => r' = r
    | Some e => me_out r' = Throw EStream /\
                me_mem r' = (if newton_summary e then me_mem r else store_var O m w (load_var m w)) /\
                me_log r' = upto acc [] (me_log r)
    end.

  Lemma stream_ref_of_refl acc m w r : me_log r = [] -> stream_ref_of acc m w r r.
  Proof. unfold stream_ref_of. intros ->. reflexivity. Qed.

  Lemma stream_ref_of_run acc m w (r r' : solve_result T) : stream_of acc (load_var m w) r r' ->
    stream_ref_of acc m w (mkMres (sr_out r) (store_var O m w (sr_x r)) (sr_log r) (sr_trace r))
                          (mkMres (sr_out r') (store_var O m w (sr_x r')) (sr_log r') (sr_trace r')).
  Proof.
    unfold stream_of, stream_ref_of. cbn [me_out me_mem me_log].
    destruct (refused acc [] (sr_log r)) as [e|]; [|intros ->; reflexivity].
    intros (-> & -> & ->). destruct (newton_summary e); auto.
  Qed.

  Lemma dense_call_ref_on acc nz nl nv s m q d w el :
    dense_inv nz nl nv s -> limits_ok (ds_options s) ->
    DenseData_ctor O (Some (q_H (load_dense m q))) (Some (q_f (load_dense m q)))
                     (Some (q_G (load_dense m q))) (Some (q_h (load_dense m q)))
                     (Some (q_A (load_dense m q))) (Some (q_b (load_dense m q))) = Ok d ->
    dense_validate s d (load_var m w) = Ok tt -> sp_len (vv_y w) = Z.to_nat nv ->
    stream_ref_of acc m w (snd (FBstabDense_SolveRef O LA s m q w el)) (snd (FBstabDense_SolveRefOn O LA acc s m q w el)) /\
    dense_inv nz nl nv (fst (FBstabDense_SolveRefOn O LA acc s m q w el)) /\
    ds_options (fst (FBstabDense_SolveRefOn O LA acc s m q w el)) = ds_options s.
  Proof.
    intros Hinv Hlim Hc Hv Hy.
    destruct (dense_call_ref nz nl nv s m q d w el Hinv Hc Hv Hy) as (-> & _).
    destruct (dense_ctor_ok _ _ Hc) as [Hok _].
    destruct (dense_validate_ok _ _ _ _ _ _ Hinv Hv) as (D1 & D2 & D3 & G).
    rewrite D1, D2, D3 in Hok.
    pose proof Hinv as (E1 & E2 & E3 & P1 & P2 & P3 & Hast).
    assert (Hq : 0 < Z.to_nat nv) by lia.
    assert (Hw : writable (Z.to_nat nz) (Z.to_nat nl) (Z.to_nat nv) Mapped (load_var m w)).
    { unfold writable. destruct G as (G1 & G2 & G3).
      unfold var_ok. repeat (split; [assumption|]). cbn. rewrite load_length. exact Hy. }
    assert (HN : (0 < p_max_newton (ds_options s))%Z) by (destruct Hlim; lia).
    pose proof (call_ref_on O (denseDI O) (denseLS O LA) d (Z.to_nat nz) (Z.to_nat nl) (Z.to_nat nv)
                (dense_data_ok O d _ _ _ Hok) (dense_ls_ok O LA d _ _ _ Hok) Hq (ds_options s)
                (fun y => reload_dense d q (store_var O m w y))
                (fun y _ => dense_data_ok O _ _ _ _ (reload_dense_ok m _ q d _ _ _ Hc Hok))
                (fun _ _ _ => eq_refl) acc Mapped el
                (ds_alg s) (load_var m w) Hast eq_refl G Hw HN) as X. cbv zeta in X.
    unfold FBstabDense_SolveRefOn. rewrite Hc, Hv.
    destruct (call_on _ _ _ _ _ _ _ _ _ _) as [s' r']. destruct X as (A1 & A2 & A3). cbn [fst snd].
    split; [apply stream_ref_of_run, stream_of_run; exact A3|]. split; [|exact A2].
    unfold dense_inv; cbn [ds_nz ds_nl ds_nv ds_alg]. auto 10.
  Qed.

  Lemma dense_solve_ref_on_inv acc nz nl nv s m q w el :
    dense_inv nz nl nv s -> limits_ok (ds_options s) -> sp_len (vv_y w) = Z.to_nat nv ->
    stream_ref_of acc m w (snd (FBstabDense_SolveRef O LA s m q w el)) (snd (FBstabDense_SolveRefOn O LA acc s m q w el)) /\
    dense_inv nz nl nv (fst (FBstabDense_SolveRefOn O LA acc s m q w el)) /\
    ds_options (fst (FBstabDense_SolveRefOn O LA acc s m q w el)) = ds_options s.
  Proof.
    intros H Hlim Hy.
    destruct (DenseData_ctor O (Some (q_H (load_dense m q))) (Some (q_f (load_dense m q)))
                     (Some (q_G (load_dense m q))) (Some (q_h (load_dense m q)))
                     (Some (q_A (load_dense m q))) (Some (q_b (load_dense m q)))) as [d|e|u] eqn:EC.
    2,3: unfold FBstabDense_SolveRefOn, FBstabDense_SolveRef; rewrite EC; cbn [fst snd];
         split; [apply stream_ref_of_refl; reflexivity|auto].
    destruct (dense_validate s d (load_var m w)) as [[]|e|u] eqn:EV.
    2,3: unfold FBstabDense_SolveRefOn, FBstabDense_SolveRef; rewrite EC, EV; cbn [fst snd];
         split; [apply stream_ref_of_refl; reflexivity|auto].
    apply (dense_call_ref_on acc nz nl nv s m q d w el H Hlim EC EV Hy).
  Qed.

  Lemma dense_update_limits s o : limits_ok (ds_options s) ->
    limits_ok (ds_options (fst (FBstabDense_UpdateOptions O s o))).
  Proof.
    unfold FBstabDense_UpdateOptions. intro H. destruct (UpdateParameters O _ o) eqn:E; auto.
    apply (update_limits _ _ _ _ E).
  Qed.

  Lemma dense_reach_inv2 nz nl nv s : dense_reach nz nl nv s -> dense_inv nz nl nv s /\ limits_ok (ds_options s).
  Proof.
    induction 1 as [g s H|s o Hr [I J]|s qp k x el Hr [I J] Hy|s m q w el Hr [I J] Hy
                   |acc s qp k x el Hr [I J] Hy|acc s m q w el Hr [I J] Hy].
    - destruct (dense_new_inv g nz nl nv s H) as [I ->]. split; [exact I|apply default_limits].
    - split; [apply dense_update_inv; exact I|apply dense_update_limits; exact J].
    - destruct (dense_solve_inv nz nl nv s qp k x el I Hy) as [I' ->]. auto.
    - destruct (dense_solve_ref_inv nz nl nv s m q w el I Hy) as [I' ->]. auto.
    - destruct (dense_solve_on_inv acc nz nl nv s qp k x el I J Hy) as (_ & I' & ->). auto.
    - destruct (dense_solve_ref_on_inv acc nz nl nv s m q w el I J Hy) as (_ & I' & ->). auto.
  Qed.

  Lemma dense_reach_inv nz nl nv s : dense_reach nz nl nv s -> dense_inv nz nl nv s.
  Proof. intro H. apply (dense_reach_inv2 _ _ _ _ H). Qed.

  (* ---------- MPC ---------- *)
  Hypothesis Hz00 : o_eqb O (o_zero O) (o_zero O) = true.

  Definition mpc_inv (N nx nu nc : Z) (s : mpc_solver T) : Prop :=
    mps_N s = N /\ mps_nx s = nx /\ mps_nu s = nu /\ mps_nc s = nc /\
    mps_nz s = ((N + 1) * (nx + nu))%Z /\ mps_nl s = ((N + 1) * nx)%Z /\
    mps_nv s = ((N + 1) * nc)%Z /\
    (1 <= N)%Z /\ (1 <= nx)%Z /\ (1 <= nu)%Z /\ (1 <= nc)%Z /\
    let n := Z.to_nat N in let x := Z.to_nat nx in let u := Z.to_nat nu in let c := Z.to_nat nc in
    ast_ok (nz n x u) (nl n x) (nv n c) (m_lsize n x u c) (mps_alg s).

  Lemma iadd_ok a b c : iadd a b = Ok c -> c = (a + b)%Z.
  Proof. unfold iadd. destruct (in_int _); [intros [= <-]; reflexivity|discriminate]. Qed.
  Lemma imul_ok a b c : imul a b = Ok c -> c = (a * b)%Z.
  Proof. unfold imul. destruct (in_int _); [intros [= <-]; reflexivity|discriminate]. Qed.

  Ltac bind H := let a := fresh "a" in let E := fresh "E" in
    apply rbind_ok in H; destruct H as (a & E & H).

  Lemma mpc_new_inv g N nx nu nc s : FBstabMpc_new O g N nx nu nc = Ok s ->
    mpc_inv N nx nu nc s /\ mps_options s = DefaultParameters O.
  Proof.
    unfold FBstabMpc_new. intro H.
    bind H. destruct a. apply throw_ok in E. apply negb_true_iff in E. rewrite !orb_false_iff in E.
    rewrite !Z.ltb_ge in E. destruct E as [[[P1 P2] P3] P4].
    bind H. apply iadd_ok in E. subst a.
    bind H. apply iadd_ok in E. subst a.
    bind H. apply imul_ok in E. subst a.
    bind H. apply imul_ok in E. subst a.
    bind H. apply imul_ok in E. subst a.
    unfold FullVariable_ctor, FullResidual_ctor, FullFeasibility_ctor, RiccatiLinearSolver_ctor in H.
    bind H. bind H. bind H. bind H.
    destruct (negb _) in E, E0, E1; try discriminate. cbn [throw_unless rbind] in E, E0, E1.
    injection E as <-. injection E0 as <-. injection E1 as <-.
    bind E2. destruct a.
    bind E2. apply iadd_ok in E0. subst a.
    bind E2. apply iadd_ok in E0. subst a.
    bind E2. apply imul_ok in E0. subst a.
    bind E2. apply imul_ok in E0. subst a.
    bind E2. apply imul_ok in E0. subst a.
    injection E2 as <-. injection H as <-.
    split; [|reflexivity].
    unfold mpc_inv; cbn [mps_N mps_nx mps_nu mps_nc mps_nz mps_nl mps_nv mps_alg].
    repeat (split; [solve [lia]|]).
    unfold ast_ok, fv_ok, fr_ok, ff_ok, var_ok, rsd_ok, ws_ok, FBstabAlgorithm_ctor, m_lsize; cbn.
    autorewrite with vlen. unfold nz, nl, nv.
    assert (X1 : Z.to_nat ((nx + nu) * (N + 1)) = (Z.to_nat N + 1) * (Z.to_nat nx + Z.to_nat nu)).
    { rewrite Z2Nat.inj_mul, !Z2Nat.inj_add by lia. change (Z.to_nat 1) with 1. lia. }
    assert (X2 : Z.to_nat (nx * (N + 1)) = (Z.to_nat N + 1) * Z.to_nat nx).
    { rewrite Z2Nat.inj_mul, !Z2Nat.inj_add by lia. change (Z.to_nat 1) with 1. lia. }
    assert (X3 : Z.to_nat (nc * (N + 1)) = (Z.to_nat N + 1) * Z.to_nat nc).
    { rewrite Z2Nat.inj_mul, !Z2Nat.inj_add by lia. change (Z.to_nat 1) with 1. lia. }
    rewrite (Z.mul_comm (N + 1) (nx + nu)), (Z.mul_comm (N + 1) nx), (Z.mul_comm (N + 1) nc).
    rewrite X1, X2, X3.
    repeat (split; [repeat split; (reflexivity || lia)|]).
    repeat (split; [reflexivity || lia|]).
    apply Forall_forall. intros st Hst. unfold tab in Hst. apply in_map_iff in Hst.
    destruct Hst as (i & <- & _). unfold stage_ok; cbn. auto 10.
  Qed.

  Lemma mpc_update_inv N nx nu nc s o : mpc_inv N nx nu nc s ->
    mpc_inv N nx nu nc (fst (FBstabMpc_UpdateOptions O s o)).
  Proof. unfold FBstabMpc_UpdateOptions. destruct (UpdateParameters O _ o); auto. Qed.

  Lemma seq_valid_sok (s : mapseq T) n r c :
    seq_valid s -> mp_N s = Z.of_nat n -> mp_nr s = Z.of_nat r -> mp_nc s = Z.of_nat c -> sok s n r c.
  Proof.
    intros (V1 & V2 & V3 & V4 & V5) E1 E2 E3 k Hk. unfold at_, mapseq_at.
    assert (HN : (0 < mp_N s)%Z) by lia.
    destruct (V5 HN) as (mem & EM & LM).
    assert (B : ((Z.of_nat k <? 0) || (mp_N s <=? Z.of_nat k))%Z = false).
    { rewrite orb_false_iff, Z.ltb_ge, Z.leb_gt. lia. }
    rewrite B, EM. cbn [negb throw_unless rbind]. unfold view.
    rewrite E1, E2, E3 in *.
    unfold in_int in V4. rewrite andb_true_iff, !Z.leb_le in V4. unfold int_min, int_max in V4.
    assert (K1 : (0 <= Z.of_nat k * Z.of_nat r)%Z) by nia.
    assert (K2 : (Z.of_nat k * Z.of_nat r + Z.of_nat r <= Z.of_nat n * Z.of_nat r)%Z) by nia.
    assert (K3 : ((Z.of_nat k * Z.of_nat r + Z.of_nat r) * Z.of_nat c <= Z.of_nat n * Z.of_nat r * Z.of_nat c)%Z)
      by (apply Z.mul_le_mono_nonneg_r; lia).
    assert (K4 : (Z.of_nat k * Z.of_nat r <= Z.of_nat k * Z.of_nat r * Z.of_nat c)%Z) by nia.
    assert (K5 : (0 <= Z.of_nat r * Z.of_nat c)%Z) by nia.
    unfold imul, in_int. unfold int_min, int_max.
    replace (_ && _)%bool with true by (symmetry; rewrite andb_true_iff, !Z.leb_le; nia).
    cbn [rbind].
    replace (_ && _)%bool with true by (symmetry; rewrite andb_true_iff, !Z.leb_le; nia).
    cbn [rbind].
    rewrite !Nat2Z.id.
    replace (_ <=? _) with true.
    - cbn [ub_unless rbind]. eexists. split; [reflexivity|]. split; reflexivity.
    - symmetry. apply Nat.leb_le.
      rewrite <- !Nat2Z.inj_mul, Nat2Z.id. nia.
  Qed.

  Lemma mpc_ctor_ok qp d : seqs_valid qp -> single_columns qp -> MpcData_ctor O qp = Ok d ->
    mpc_ok d (md_N d) (md_nx d) (md_nu d) (md_nc d) /\ md_m d = qp /\
    (Z.of_nat (md_N d) = mp_N (m_B qp) /\ Z.of_nat (md_nx d) = mp_nr (m_B qp) /\
     Z.of_nat (md_nu d) = mp_nc (m_B qp) /\ Z.of_nat (md_nc d) = mp_nr (m_E qp))%Z.
  Proof.
    intros [VQ VR VS Vq Vr VA VB Vc VE VL Vd] (S1 & S2 & S3 & S4) H.
    unfold MpcData_ctor in H. bind H. destruct a.
    bind H. apply iadd_ok in E0. subst a.
    bind H. apply iadd_ok in E0. subst a.
    bind H. apply imul_ok in E0. subst a.
    bind H. apply imul_ok in E0. subst a.
    bind H. apply imul_ok in E0. subst a.
    bind H. clear E0. injection H as <-. cbn [md_N md_nx md_nu md_nc md_m].
    unfold mpc_validate in E.
    repeat (apply rbind_ok in E; let a := fresh "a" in let F := fresh "F" in
            destruct E as (a & F & E); destruct a; apply throw_ok in F).
    apply throw_ok in E.
    rewrite ?andb_true_iff, ?Z.eqb_eq in *.
    pose proof VB as (B1 & B2 & B3 & _). pose proof VE as (E1 & E2 & E3 & _).
    split; [|split; [reflexivity|repeat split; rewrite Z2Nat.id; lia]].
    constructor; cbn [md_N md_nx md_nu md_nc md_nz md_nl md_nv md_m]; try reflexivity.
    - rewrite Z2Nat.inj_mul, !Z2Nat.inj_add by lia. change (Z.to_nat 1) with 1. lia.
    - rewrite Z2Nat.inj_mul, !Z2Nat.inj_add by lia. change (Z.to_nat 1) with 1. lia.
    - rewrite Z2Nat.inj_mul, !Z2Nat.inj_add by lia. change (Z.to_nat 1) with 1. lia.
    - apply seq_valid_sok; auto; try lia.
    - apply seq_valid_sok; auto; lia.
    - apply seq_valid_sok; auto; lia.
    - apply seq_valid_sok; auto; lia.
    - apply seq_valid_sok; auto; lia.
    - apply seq_valid_sok; auto; lia.
    - apply seq_valid_sok; auto; lia.
    - apply seq_valid_sok; auto; lia.
    - apply seq_valid_sok; auto; lia.
    - apply seq_valid_sok; auto; lia.
    - apply seq_valid_sok; auto; lia.
    - lia.
  Qed.

  Lemma mpc_validate_ok N nx nu nc s d x : mpc_inv N nx nu nc s ->
    mpc_validate_inputs s d x = Ok tt ->
    md_N d = Z.to_nat N /\ md_nx d = Z.to_nat nx /\ md_nu d = Z.to_nat nu /\ md_nc d = Z.to_nat nc /\
    let n := Z.to_nat N in let a := Z.to_nat nx in let u := Z.to_nat nu in let c := Z.to_nat nc in
    var_ok (nz n a u) (nl n a) (nv n c) x.
  Proof.
    intros (E1 & E2 & E3 & E4 & E5 & E6 & E7 & P1 & P2 & P3 & P4 & _).
    unfold mpc_validate_inputs. rewrite E1, E2, E3, E4, E5, E6, E7. intro H.
    apply rbind_ok in H. destruct H as ([] & A & B). apply throw_ok in A, B.
    rewrite !andb_true_iff, !Z.eqb_eq in A, B. unfold var_ok, nz, nl, nv.
    destruct A as (((A1 & A2) & A3) & A4), B as (((B1 & B2) & B3) & B4).
    rewrite <- A1, <- A2, <- A3, <- A4 in *. rewrite !Nat2Z.id.
    repeat split; lia.
  Qed.

  Lemma mpc_call N nx nu nc s qp d k x el :
    mpc_inv N nx nu nc s -> seqs_valid qp -> single_columns qp ->
    MpcData_ctor O qp = Ok d -> mpc_validate_inputs s d x = Ok tt ->
    let n := Z.to_nat N in let a := Z.to_nat nx in let u := Z.to_nat nu in let c := Z.to_nat nc in
    let o := mps_options s in
    let run := psolve O o (prob_of O (mpcDI O) d (nz n a u) (nl n a) (nv n c)
                             (m_pinit O LA d n a u c) (m_pst O LA d n a u c) o)
                      (nz n a u) (nl n a) (nv n c) el (stale_of O (mps_alg s)) (ws_of (mps_alg s)) x in
    mpc_ok d n a u c /\
    snd (FBstabMpc_Solve O LA s qp k x el) = presult run x /\
    is_ub (snd run) = false /\
    (forall out xw, snd run = Ok (out, xw) -> var_ok (nz n a u) (nl n a) (nv n c) xw) /\
    mpc_inv N nx nu nc (fst (FBstabMpc_Solve O LA s qp k x el)) /\
    mps_options (fst (FBstabMpc_Solve O LA s qp k x el)) = o.
  Proof.
    intros Hinv Hs Hc1 Hc Hv. cbv zeta.
    destruct (mpc_ctor_ok _ _ Hs Hc1 Hc) as [Hok _].
    destruct (mpc_validate_ok _ _ _ _ _ _ _ Hinv Hv) as (D1 & D2 & D3 & D4 & G). cbv zeta in G.
    rewrite D1, D2, D3, D4 in Hok.
    pose proof Hinv as (E1 & E2 & E3 & E4 & E5 & E6 & E7 & P1 & P2 & P3 & P4 & Hast). cbv zeta in Hast.
    assert (Hq : 0 < nv (Z.to_nat N) (Z.to_nat nc)) by (unfold nv; nia).
    assert (Hg : guess_ok (nz (Z.to_nat N) (Z.to_nat nx) (Z.to_nat nu)) (nl (Z.to_nat N) (Z.to_nat nx))
                   (nv (Z.to_nat N) (Z.to_nat nc)) x) by (unfold guess_ok; split; apply G || split; apply G).
    assert (Hw : writable (nz (Z.to_nat N) (Z.to_nat nx) (Z.to_nat nu)) (nl (Z.to_nat N) (Z.to_nat nx))
                   (nv (Z.to_nat N) (Z.to_nat nc)) k x) by (unfold writable; destruct k; [exact I|exact G]).
    pose proof (mpc_data_ok O d _ _ _ _ Hok) as HD.
    destruct (call_ref O (mpcDI O) (mpcLS O LA) d _ _ _ HD
                (mpc_ls_ok O LA Hz00 d _ _ _ _ Hok) Hq (mps_options s) k el
                (mps_alg s) x Hast eq_refl Hg Hw) as (s' & EC & A1 & A2 & A3 & A4).
    unfold FBstabMpc_Solve. rewrite Hc, Hv, EC. cbn [fst snd].
    split; [exact Hok|]. split; [reflexivity|]. split; [exact A3|]. split; [exact A4|].
    split; [|exact A2].
    unfold mpc_inv; cbn [mps_N mps_nx mps_nu mps_nc mps_nz mps_nl mps_nv mps_alg]. auto 20.
  Qed.

  Lemma mpc_solve_inv N nx nu nc s qp k x el : mpc_inv N nx nu nc s ->
    seqs_valid qp -> single_columns qp ->
    mpc_inv N nx nu nc (fst (FBstabMpc_Solve O LA s qp k x el)) /\
    mps_options (fst (FBstabMpc_Solve O LA s qp k x el)) = mps_options s.
  Proof.
    intros H Hs Hc.
    destruct (MpcData_ctor O qp) as [d|e|u] eqn:EC.
    2,3: unfold FBstabMpc_Solve; rewrite EC; auto.
    destruct (mpc_validate_inputs s d x) as [[]|e|u] eqn:EV.
    2,3: unfold FBstabMpc_Solve; rewrite EC, EV; auto.
    apply (mpc_call N nx nu nc s qp d k x el H Hs Hc EC EV).
  Qed.

  Lemma load_seq_sok (m m' : memory T) v n r c : sok (load_seq m v) n r c -> sok (load_seq m' v) n r c.
  Proof.
    intros H k Hk. destruct (H k Hk) as (M & E & E1 & E2).
    unfold at_, mapseq_at, load_seq, view in *. cbn [mp_N mp_nr mp_nc mp_mem] in *.
    bind E. rewrite E0. cbn [rbind]. bind E. rewrite E3. cbn [rbind]. bind E. rewrite E4. cbn [rbind].
    rewrite load_length in E. rewrite load_length. bind E. rewrite E5. cbn [rbind].
    injection E as <-. cbn [mr mc] in E1, E2. eexists. split; [reflexivity|]. cbn. auto.
  Qed.

  Lemma reload_mpc_ok (m m' : memory T) q (d : mpc_data T) n a u c : md_m d = load_mpc m q ->
    mpc_ok d n a u c -> mpc_ok (reload_mpc d q m') n a u c.
  Proof.
    intros E [H1 H2 H3 H4 H5 H6 H7 S1 S2 S3 S4 S5 S6 S7 S8 S9 S10 S11 X].
    rewrite E in *. cbn [load_mpc m_Q m_R m_S m_q m_r m_A m_B m_c m_E m_L m_d m_x0] in *.
    constructor; cbn [reload_mpc md_N md_nx md_nu md_nc md_nz md_nl md_nv md_m load_mpc
      m_Q m_R m_S m_q m_r m_A m_B m_c m_E m_L m_d m_x0]; try assumption;
      try (eapply load_seq_sok; eassumption).
    rewrite load_length in *. exact X.
  Qed.

  Lemma mpc_call_ref N nx nu nc s m q d w el :
    mpc_inv N nx nu nc s -> seqs_valid (load_mpc m q) -> single_columns (load_mpc m q) ->
    MpcData_ctor O (load_mpc m q) = Ok d -> mpc_validate_inputs s d (load_var m w) = Ok tt ->
    let n := Z.to_nat N in let a := Z.to_nat nx in let u := Z.to_nat nu in let c := Z.to_nat nc in
    let o := mps_options s in
    let cl := closing O (mpcDI O) (nz n a u) (nl n a) (nv n c)
                (pinit:=m_pinit O LA d n a u c) (pst:=m_pst O LA d n a u c) o
                (fun y => reload_mpc d q (store_var O m w y)) in
    let run := psolve_shared O o (prob_of O (mpcDI O) d (nz n a u) (nl n a) (nv n c)
                             (m_pinit O LA d n a u c) (m_pst O LA d n a u c) o) cl
                      (nz n a u) (nl n a) (nv n c) el (stale_of O (mps_alg s)) (ws_of (mps_alg s)) (load_var m w) in
    let sr := presult run (load_var m w) in
    snd (FBstabMpc_SolveRef O LA s m q w el) =
      mkMres (sr_out sr) (store_var O m w (sr_x sr)) (sr_log sr) (sr_trace sr) /\
    is_ub (snd run) = false /\
    mpc_inv N nx nu nc (fst (FBstabMpc_SolveRef O LA s m q w el)) /\
    mps_options (fst (FBstabMpc_SolveRef O LA s m q w el)) = o.
  Proof.
    intros Hinv Hs Hc1 Hc Hv. cbv zeta.
    destruct (mpc_ctor_ok _ _ Hs Hc1 Hc) as (Hok & Hm & _).
    destruct (mpc_validate_ok _ _ _ _ _ _ _ Hinv Hv) as (D1 & D2 & D3 & D4 & G). cbv zeta in G.
    rewrite D1, D2, D3, D4 in Hok.
    pose proof Hinv as (E1 & E2 & E3 & E4 & E5 & E6 & E7 & P1 & P2 & P3 & P4 & Hast). cbv zeta in Hast.
    assert (Hq : 0 < nv (Z.to_nat N) (Z.to_nat nc)) by (unfold nv; nia).
    assert (Hg : guess_ok (nz (Z.to_nat N) (Z.to_nat nx) (Z.to_nat nu)) (nl (Z.to_nat N) (Z.to_nat nx))
                   (nv (Z.to_nat N) (Z.to_nat nc)) (load_var m w)) by (unfold guess_ok; split; apply G || split; apply G).
    pose proof (mpc_data_ok O d _ _ _ _ Hok) as HD.
    destruct (call_ref_shared O (mpcDI O) (mpcLS O LA) d _ _ _ HD
                (mpc_ls_ok O LA Hz00 d _ _ _ _ Hok) Hq (mps_options s)
                (fun y => reload_mpc d q (store_var O m w y))
                (fun y _ => mpc_data_ok O _ _ _ _ _ (reload_mpc_ok m _ q d _ _ _ _ Hm Hok))
                (fun _ _ _ => eq_refl) Mapped el
                (mps_alg s) (load_var m w) Hast eq_refl Hg G) as (s' & EC & A1 & A2 & A3 & A4).
    unfold FBstabMpc_SolveRef. rewrite Hc, Hv, EC. cbn [fst snd].
    split; [reflexivity|]. split; [exact A3|].
    split; [|exact A2].
    unfold mpc_inv; cbn [mps_N mps_nx mps_nu mps_nc mps_nz mps_nl mps_nv mps_alg]. auto 20.
  Qed.

  Lemma mpc_solve_ref_inv N nx nu nc s m q w el : mpc_inv N nx nu nc s ->
    seqs_valid (load_mpc m q) -> single_columns (load_mpc m q) ->
    mpc_inv N nx nu nc (fst (FBstabMpc_SolveRef O LA s m q w el)) /\
    mps_options (fst (FBstabMpc_SolveRef O LA s m q w el)) = mps_options s.
  Proof.
    intros H Hs Hc.
    destruct (MpcData_ctor O (load_mpc m q)) as [d|e|u] eqn:EC.
    2,3: unfold FBstabMpc_SolveRef; rewrite EC; auto.
    destruct (mpc_validate_inputs s d (load_var m w)) as [[]|e|u] eqn:EV.
    2,3: unfold FBstabMpc_SolveRef; rewrite EC, EV; auto.
    apply (mpc_call_ref N nx nu nc s m q d w el H Hs Hc EC EV).
  Qed.

  Lemma mpc_solve_on_inv acc N nx nu nc s qp k x el :
    mpc_inv N nx nu nc s -> limits_ok (mps_options s) -> seqs_valid qp -> single_columns qp ->
    stream_of acc x (snd (FBstabMpc_Solve O LA s qp k x el)) (snd (FBstabMpc_SolveOn O LA acc s qp k x el)) /\
    mpc_inv N nx nu nc (fst (FBstabMpc_SolveOn O LA acc s qp k x el)) /\
    mps_options (fst (FBstabMpc_SolveOn O LA acc s qp k x el)) = mps_options s.
  Proof.
    intros Hinv Hlim Hs Hc1.
    destruct (MpcData_ctor O qp) as [d|e|u] eqn:Hc.
    2,3: unfold FBstabMpc_SolveOn, FBstabMpc_Solve; rewrite Hc; cbn [fst snd];
         split; [apply stream_of_refl; reflexivity|auto].
    destruct (mpc_validate_inputs s d x) as [[]|e|u] eqn:Hv.
    2,3: unfold FBstabMpc_SolveOn, FBstabMpc_Solve; rewrite Hc, Hv; cbn [fst snd];
         split; [apply stream_of_refl; reflexivity|auto].
    destruct (mpc_call N nx nu nc s qp d k x el Hinv Hs Hc1 Hc Hv) as (Hok & -> & _).
    destruct (mpc_validate_ok _ _ _ _ _ _ _ Hinv Hv) as (D1 & D2 & D3 & D4 & G). cbv zeta in G.
    pose proof Hinv as (E1 & E2 & E3 & E4 & E5 & E6 & E7 & P1 & P2 & P3 & P4 & Hast). cbv zeta in Hast.
    assert (Hq : 0 < nv (Z.to_nat N) (Z.to_nat nc)) by (unfold nv; nia).
    assert (Hg : guess_ok (nz (Z.to_nat N) (Z.to_nat nx) (Z.to_nat nu)) (nl (Z.to_nat N) (Z.to_nat nx))
                   (nv (Z.to_nat N) (Z.to_nat nc)) x) by (unfold guess_ok; split; apply G || split; apply G).
    assert (Hw : writable (nz (Z.to_nat N) (Z.to_nat nx) (Z.to_nat nu)) (nl (Z.to_nat N) (Z.to_nat nx))
                   (nv (Z.to_nat N) (Z.to_nat nc)) k x) by (unfold writable; destruct k; [exact I|exact G]).
    assert (HN : (0 < p_max_newton (mps_options s))%Z) by (destruct Hlim; lia).
    pose proof (mpc_data_ok O d _ _ _ _ Hok) as HD.
    pose proof (call_ref_on O (mpcDI O) (mpcLS O LA) d _ _ _ HD
                (mpc_ls_ok O LA Hz00 d _ _ _ _ Hok) Hq (mps_options s)
                (fun _ => d) (fun _ _ => HD) (fun _ _ _ => eq_refl) acc k el
                (mps_alg s) x Hast eq_refl Hg Hw HN) as X. cbv zeta in X.
    unfold FBstabMpc_SolveOn. rewrite Hc, Hv.
    destruct (call_on _ _ _ _ _ _ _ _ _ _) as [s' r']. destruct X as (A1 & A2 & A3). cbn [fst snd].
    split; [apply stream_of_run; exact A3|]. split; [|exact A2].
    unfold mpc_inv; cbn [mps_N mps_nx mps_nu mps_nc mps_nz mps_nl mps_nv mps_alg]. auto 20.
  Qed.

  Lemma mpc_solve_ref_on_inv acc N nx nu nc s m q w el :
    mpc_inv N nx nu nc s -> limits_ok (mps_options s) ->
    seqs_valid (load_mpc m q) -> single_columns (load_mpc m q) ->
    stream_ref_of acc m w (snd (FBstabMpc_SolveRef O LA s m q w el)) (snd (FBstabMpc_SolveRefOn O LA acc s m q w el)) /\
    mpc_inv N nx nu nc (fst (FBstabMpc_SolveRefOn O LA acc s m q w el)) /\
    mps_options (fst (FBstabMpc_SolveRefOn O LA acc s m q w el)) = mps_options s.
  Proof.
    intros Hinv Hlim Hs Hc1.
    destruct (MpcData_ctor O (load_mpc m q)) as [d|e|u] eqn:Hc.
    2,3: unfold FBstabMpc_SolveRefOn, FBstabMpc_SolveRef; rewrite Hc; cbn [fst snd];
         split; [apply stream_ref_of_refl; reflexivity|auto].
    destruct (mpc_validate_inputs s d (load_var m w)) as [[]|e|u] eqn:Hv.
    2,3: unfold FBstabMpc_SolveRefOn, FBstabMpc_SolveRef; rewrite Hc, Hv; cbn [fst snd];
         split; [apply stream_ref_of_refl; reflexivity|auto].
    destruct (mpc_call_ref N nx nu nc s m q d w el Hinv Hs Hc1 Hc Hv) as (-> & _).
    destruct (mpc_ctor_ok _ _ Hs Hc1 Hc) as (Hok & Hm & _).
    destruct (mpc_validate_ok _ _ _ _ _ _ _ Hinv Hv) as (D1 & D2 & D3 & D4 & G). cbv zeta in G.
    rewrite D1, D2, D3, D4 in Hok.
    pose proof Hinv as (E1 & E2 & E3 & E4 & E5 & E6 & E7 & P1 & P2 & P3 & P4 & Hast). cbv zeta in Hast.
    assert (Hq : 0 < nv (Z.to_nat N) (Z.to_nat nc)) by (unfold nv; nia).
    assert (Hg : guess_ok (nz (Z.to_nat N) (Z.to_nat nx) (Z.to_nat nu)) (nl (Z.to_nat N) (Z.to_nat nx))
                   (nv (Z.to_nat N) (Z.to_nat nc)) (load_var m w)) by (unfold guess_ok; split; apply G || split; apply G).
    assert (HN : (0 < p_max_newton (mps_options s))%Z) by (destruct Hlim; lia).
    pose proof (mpc_data_ok O d _ _ _ _ Hok) as HD.
    pose proof (call_ref_on O (mpcDI O) (mpcLS O LA) d _ _ _ HD
                (mpc_ls_ok O LA Hz00 d _ _ _ _ Hok) Hq (mps_options s)
                (fun y => reload_mpc d q (store_var O m w y))
                (fun y _ => mpc_data_ok O _ _ _ _ _ (reload_mpc_ok m _ q d _ _ _ _ Hm Hok))
                (fun _ _ _ => eq_refl) acc Mapped el
                (mps_alg s) (load_var m w) Hast eq_refl Hg G HN) as X. cbv zeta in X.
    unfold FBstabMpc_SolveRefOn. rewrite Hc, Hv.
    destruct (call_on _ _ _ _ _ _ _ _ _ _) as [s' r']. destruct X as (A1 & A2 & A3). cbn [fst snd].
    split; [apply stream_ref_of_run, stream_of_run; exact A3|]. split; [|exact A2].
    unfold mpc_inv; cbn [mps_N mps_nx mps_nu mps_nc mps_nz mps_nl mps_nv mps_alg]. auto 20.
  Qed.

  Lemma mpc_update_limits s o : limits_ok (mps_options s) ->
    limits_ok (mps_options (fst (FBstabMpc_UpdateOptions O s o))).
  Proof.
    unfold FBstabMpc_UpdateOptions. intro H. destruct (UpdateParameters O _ o) eqn:E; auto.
    apply (update_limits _ _ _ _ E).
  Qed.

  Lemma mpc_reach_inv2 N nx nu nc s : mpc_reach N nx nu nc s -> mpc_inv N nx nu nc s /\ limits_ok (mps_options s).
  Proof.
    induction 1 as [g s H|s o Hr [I J]|s qp k x el Hr [I J] Hs Hc|s m q w el Hr [I J] Hs Hc
                   |acc s qp k x el Hr [I J] Hs Hc|acc s m q w el Hr [I J] Hs Hc].
    - destruct (mpc_new_inv g N nx nu nc s H) as [I ->]. split; [exact I|apply default_limits].
    - split; [apply mpc_update_inv; exact I|apply mpc_update_limits; exact J].
    - destruct (mpc_solve_inv N nx nu nc s qp k x el I Hs Hc) as [I' ->]. auto.
    - destruct (mpc_solve_ref_inv N nx nu nc s m q w el I Hs Hc) as [I' ->]. auto.
    - destruct (mpc_solve_on_inv acc N nx nu nc s qp k x el I J Hs Hc) as (_ & I' & ->). auto.
    - destruct (mpc_solve_ref_on_inv acc N nx nu nc s m q w el I J Hs Hc) as (_ & I' & ->). auto.
  Qed.

  Lemma mpc_reach_inv N nx nu nc s : mpc_reach N nx nu nc s -> mpc_inv N nx nu nc s.
  Proof. intro H. apply (mpc_reach_inv2 _ _ _ _ _ H). Qed.

  (* ---------- every accepted call, uniformly ---------- *)
  Lemma call_pure D DI d nz nl nv o x el r :
    solve_call D DI d nz nl nv o x el r ->
    exists pinit pst stale w,
      let run := psolve O o (prob_of O DI d nz nl nv pinit pst o) nz nl nv el stale w x in
      r = presult run x /\ is_ub (snd run) = false /\
      (forall out xw, snd run = Ok (out, xw) -> var_ok nz nl nv xw) /\
      DataOk DI d nz nl nv /\ guess_ok nz nl nv x /\ 0 < nv /\
      (forall al sg y yb, pinit al sg y yb =
         if o_leb O sg (o_zero O) then Throw ESigma else Ok (unres true (pinit al sg y yb))).
  Proof.
    intros [nz' nl' nv' s qp d' k x' el' Hr Hc Hv Hy|N nx nu nc s qp d' k x' el' Hr Hs Hc1 Hc Hv].
    - pose proof (dense_reach_inv _ _ _ _ Hr) as Hi.
      destruct (dense_call _ _ _ _ _ _ _ _ el' Hi Hc Hv Hy) as (A0 & A1 & A2 & A3 & _).
      destruct (dense_validate_ok _ _ _ _ _ _ Hi Hv) as (_ & _ & _ & G).
      do 4 eexists. cbv zeta in *. split; [exact A1|]. split; [exact A2|]. split; [exact A3|].
      split; [apply dense_data_ok; exact A0|]. split; [exact G|].
      split; [destruct Hi as (_ & _ & _ & _ & _ & P & _); lia|].
      intros al sg y yb. unfold d_pinit. destruct (o_leb O sg (o_zero O)); reflexivity.
    - pose proof (mpc_reach_inv _ _ _ _ _ Hr) as Hi.
      destruct (mpc_call _ _ _ _ _ _ _ k _ el' Hi Hs Hc1 Hc Hv) as (A0 & A1 & A2 & A3 & _).
      destruct (mpc_validate_ok _ _ _ _ _ _ _ Hi Hv) as (_ & _ & _ & _ & G).
      destruct Hi as (_ & _ & _ & _ & E5 & E6 & E7 & P1 & P2 & P3 & P4 & _).
      assert (X1 : Z.to_nat (mps_nz s) = RiccatiOk.nz (Z.to_nat N) (Z.to_nat nx) (Z.to_nat nu)).
      { rewrite E5. unfold RiccatiOk.nz. rewrite Z2Nat.inj_mul, !Z2Nat.inj_add by lia. reflexivity. }
      assert (X2 : Z.to_nat (mps_nl s) = RiccatiOk.nl (Z.to_nat N) (Z.to_nat nx)).
      { rewrite E6. unfold RiccatiOk.nl. rewrite Z2Nat.inj_mul, !Z2Nat.inj_add by lia. reflexivity. }
      assert (X3 : Z.to_nat (mps_nv s) = RiccatiOk.nv (Z.to_nat N) (Z.to_nat nc)).
      { rewrite E7. unfold RiccatiOk.nv. rewrite Z2Nat.inj_mul, !Z2Nat.inj_add by lia. reflexivity. }
      rewrite X1, X2, X3.
      do 4 eexists. cbv zeta in *. split; [exact A1|]. split; [exact A2|]. split; [exact A3|].
      split; [apply mpc_data_ok; exact A0|].
      split; [unfold guess_ok; split; [|split]; apply G|].
      split; [unfold RiccatiOk.nv; nia|].
      intros al sg y yb. unfold m_pinit. destruct (o_leb O sg (o_zero O)); reflexivity.
  Qed.
End Reach.
