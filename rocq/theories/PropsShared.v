(* Solve on caller memory, where problem data and the caller's vectors may overlap (C61). *)
From Verif Require Export PropsApi.
Local Open Scope nat_scope.

(* ---------- specification ---------- *)

(* address a lies in the window *)
Definition inside (s : span) (a : nat) : Prop := sp_at s <= a < sp_at s + sp_len s.
(* two windows share no address *)
Definition apart (s t : span) : Prop := forall a, inside s a -> inside t a -> False.
Definition vars_of (w : var_view) : list span := [vv_z w; vv_l w; vv_v w; vv_y w].
Definition sspan (v : sview) : span := mkSpan (sq_at v) (Z.to_nat (sq_N v * sq_nr v * sq_nc v)).
Definition mspan (v : mview) : span := mkSpan (mv_at v) (mv_r v * mv_c v).
Definition spans_of_dense (q : dense_view) : list span :=
  [mspan (dv_H q); dv_f q; mspan (dv_G q); dv_h q; mspan (dv_A q); dv_b q].
Definition spans_of_mpc (q : mpc_view) : list span :=
  [sspan (w_Q q); sspan (w_R q); sspan (w_S q); sspan (w_q q); sspan (w_r q); sspan (w_A q);
   sspan (w_B q); sspan (w_c q); sspan (w_E q); sspan (w_L q); sspan (w_d q); w_x0 q].
(* no window of the first list meets one of the second *)
Definition all_apart (a b : list span) : Prop := forall s t, In s a -> In t b -> apart s t.
(* the four vectors of the caller do not meet each other *)
Definition vars_apart (w : var_view) : Prop :=
  apart (vv_z w) (vv_l w) /\ apart (vv_z w) (vv_v w) /\ apart (vv_z w) (vv_y w) /\
  apart (vv_l w) (vv_v w) /\ apart (vv_l w) (vv_y w) /\ apart (vv_v w) (vv_y w).

(* [v]: the run of Solve on private copies of the data and the guess found in memory m;
   [r]: the run on the memory itself.  [resid m' x e]: e is the KKT residual norm of x for the
   problem found in memory m'. *)
Record as_if_copied {T} (O : Ops T) (m : memory T) (w : var_view) (max_newton : Z)
       (resid : memory T -> var T -> T -> Prop) (v : solve_result T) (r : mem_result T) : Prop := {
  (* the same exception, and then the memory is as before *)
  ac_throw : forall e, me_out r = Throw e <-> sr_out v = Throw e;
  ac_kept : forall e, me_out r = Throw e -> forall a, me_mem r a = m a;
  ac_ub : forall u, me_out r = UB u <-> sr_out v = UB u;
  (* a normal return *)
  ac_ok : forall b, me_out r = Ok b -> exists a, sr_out v = Ok a /\
     so_eflag b = so_eflag a /\ so_newton b = so_newton a /\ so_prox b = so_prox a /\
     so_time b = so_time a /\ so_initial b = so_initial a /\
     me_mem r = store_var O m w (sr_x v) /\
     (* everything agrees unless the Newton limit ended the call ... *)
     (so_eflag b <> MAXITERATIONS \/ (so_newton b < max_newton)%Z -> b = a /\ me_log r = sr_log v) /\
     (* ... and then the reported residual is that of the returned point for the problem that is
        in memory once the result has been written there *)
     (so_eflag b = MAXITERATIONS -> (max_newton <= so_newton b)%Z ->
        resid (me_mem r) (sr_x v) (so_residual b) /\ resid m (sr_x v) (so_residual a) /\
        removelast (me_log r) = removelast (sr_log v)) }.

(* [m']: memory [m] after the results x were assigned to z, l, v, y in this order *)
Record written {T} (m : memory T) (w : var_view) (x : var T) (m' : memory T) : Prop := {
  wr_frame : forall a, (forall s, In s (vars_of w) -> ~ inside s a) -> m' a = m a;
  wr_y : load m' (vv_y w) = v_y x;
  wr_v : apart (vv_v w) (vv_y w) -> load m' (vv_v w) = v_v x;
  wr_l : apart (vv_l w) (vv_v w) -> apart (vv_l w) (vv_y w) -> load m' (vv_l w) = v_l x;
  wr_z : apart (vv_z w) (vv_l w) -> apart (vv_z w) (vv_v w) -> apart (vv_z w) (vv_y w) ->
         load m' (vv_z w) = v_z x }.

(* ---------- memory ---------- *)
Section Memory.
  Context {T : Type} (O : Ops T).

  Lemma inside_dec s a : (sp_at s <=? a) && (a <? sp_at s + sp_len s) = true <-> inside s a.
  Proof. unfold inside. rewrite andb_true_iff, Nat.leb_le, Nat.ltb_lt. reflexivity. Qed.

  Lemma store_in m s (v : vec T) a : inside s a -> store O m s v a = vget O v (a - sp_at s).
  Proof. intro H. unfold store. apply inside_dec in H. rewrite H. reflexivity. Qed.
  Lemma store_out m s (v : vec T) a : ~ inside s a -> store O m s v a = m a.
  Proof.
    intro H. unfold store. destruct (_ && _) eqn:E; [|reflexivity].
    apply inside_dec in E. contradiction.
  Qed.
  Lemma inside_em s a : inside s a \/ ~ inside s a.
  Proof. unfold inside. lia. Qed.

  Lemma load_at (m : memory T) s i : i < sp_len s -> vget O (load m s) i = m (sp_at s + i).
  Proof. intro H. unfold load. rewrite vget_tab by exact H. reflexivity. Qed.
  Lemma load_len (m : memory T) s : length (load m s) = sp_len s.
  Proof. unfold load. apply tab_length. Qed.
  Lemma load_ext (m m' : memory T) s : (forall a, inside s a -> m a = m' a) -> load m s = load m' s.
  Proof.
    intro H. unfold load. apply tab_ext. intros i Hi. apply H. unfold inside. lia.
  Qed.
  Lemma load_store m s (v : vec T) : length v = sp_len s -> load (store O m s v) s = v.
  Proof.
    intro H. apply (vec_ext O).
    - rewrite load_len. symmetry. exact H.
    - intros i Hi. rewrite load_len in Hi. rewrite load_at by exact Hi.
      rewrite store_in by (unfold inside; lia). f_equal. lia.
  Qed.

  Lemma store_load_back (m : memory T) w a : store_var O m w (load_var m w) a = m a.
  Proof.
    assert (K : forall (m' : memory T) s, (forall b, m' b = m b) -> forall b, store O m' s (load m s) b = m b).
    { intros m' s H b. destruct (inside_em s b) as [I|I].
      - rewrite store_in by exact I. unfold inside in I. rewrite load_at by lia. f_equal. lia.
      - rewrite store_out by exact I. apply H. }
    unfold store_var, load_var. cbn [v_z v_l v_v v_y]. apply K, K, K, K. reflexivity.
  Qed.

  Lemma store_var_frame m w (x : var T) a : (forall s, In s (vars_of w) -> ~ inside s a) ->
    store_var O m w x a = m a.
  Proof.
    intro H. unfold vars_of in H. unfold store_var.
    rewrite !store_out by (apply H; cbn; auto 10). reflexivity.
  Qed.

  (* the four writes, in the order z, l, v, y: the last one to an address stays *)
  Lemma store_var_y m w (x : var T) : length (v_y x) = sp_len (vv_y w) ->
    load (store_var O m w x) (vv_y w) = v_y x.
  Proof. intro H. unfold store_var. apply load_store. exact H. Qed.
  Lemma store_var_v m w (x : var T) : length (v_v x) = sp_len (vv_v w) -> apart (vv_v w) (vv_y w) ->
    load (store_var O m w x) (vv_v w) = v_v x.
  Proof.
    intros H A. unfold store_var.
    rewrite (load_ext _ (store O (store O (store O m (vv_z w) (v_z x)) (vv_l w) (v_l x)) (vv_v w) (v_v x))).
    - apply load_store. exact H.
    - intros a I. rewrite store_out; [reflexivity|]. intro J. exact (A a I J).
  Qed.
  Lemma store_var_l m w (x : var T) : length (v_l x) = sp_len (vv_l w) ->
    apart (vv_l w) (vv_v w) -> apart (vv_l w) (vv_y w) ->
    load (store_var O m w x) (vv_l w) = v_l x.
  Proof.
    intros H A B. unfold store_var.
    rewrite (load_ext _ (store O (store O m (vv_z w) (v_z x)) (vv_l w) (v_l x))).
    - apply load_store. exact H.
    - intros a I. rewrite (store_out _ (vv_y w)), (store_out _ (vv_v w));
        [reflexivity|intro J; exact (A a I J)|intro J; exact (B a I J)].
  Qed.
  Lemma store_var_z m w (x : var T) : length (v_z x) = sp_len (vv_z w) ->
    apart (vv_z w) (vv_l w) -> apart (vv_z w) (vv_v w) -> apart (vv_z w) (vv_y w) ->
    load (store_var O m w x) (vv_z w) = v_z x.
  Proof.
    intros H A B C. unfold store_var.
    rewrite (load_ext _ (store O m (vv_z w) (v_z x))).
    - apply load_store. exact H.
    - intros a I. rewrite (store_out _ (vv_y w)), (store_out _ (vv_v w)), (store_out _ (vv_l w));
        [reflexivity|intro J; exact (A a I J)|intro J; exact (B a I J)|intro J; exact (C a I J)].
  Qed.
  Lemma store_var_all m w (x : var T) : vars_apart w ->
    length (v_z x) = sp_len (vv_z w) -> length (v_l x) = sp_len (vv_l w) ->
    length (v_v x) = sp_len (vv_v w) -> length (v_y x) = sp_len (vv_y w) ->
    load_var (store_var O m w x) w = x.
  Proof.
    intros (A1 & A2 & A3 & A4 & A5 & A6) L1 L2 L3 L4. unfold load_var.
    rewrite store_var_z, store_var_l, store_var_v, store_var_y by assumption.
    destruct x; reflexivity.
  Qed.

  Lemma written_store m w (x : var T) :
    length (v_z x) = sp_len (vv_z w) -> length (v_l x) = sp_len (vv_l w) ->
    length (v_v x) = sp_len (vv_v w) -> length (v_y x) = sp_len (vv_y w) ->
    written m w x (store_var O m w x).
  Proof.
    intros. constructor; intros.
    - apply store_var_frame. assumption.
    - apply store_var_y. assumption.
    - apply store_var_v; assumption.
    - apply store_var_l; assumption.
    - apply store_var_z; assumption.
  Qed.
End Memory.

(* ---------- the run ---------- *)
Section Run.
  Context {T : Type} (O : Ops T) (o : params T) (pb : prob T) (pr : var T -> rsd T).

  Lemma removelast_final cm e ms p n rk :
    removelast (cm ++ final_line o pb e ms p n rk) =
    if ge_final (p_display o) then cm else removelast cm.
  Proof.
    unfold final_line. destruct (ge_final (p_display o)).
    - apply removelast_last.
    - rewrite app_nil_r. reflexivity.
  Qed.

  Lemma presult_sizes (run : W T (solver_out T * var T)) x n p c :
    (forall out xw, snd run = Ok (out, xw) -> var_ok n p c xw) -> var_ok n p c x ->
    var_ok n p c (sr_x (presult run x)).
  Proof.
    destruct run as [[lg tr] [[out xw]|e|u]]; cbn [presult sr_x snd]; intros H Hx; try exact Hx.
    eapply H. reflexivity.
  Qed.

  Lemma run_as_copied nz nl nv el stale wk (m : memory T) w resid :
    limits_ok o ->
    let x := load_var m w in
    let v := presult (psolve O o pb nz nl nv el stale wk x) x in
    let s := presult (psolve_shared O o pb pr nz nl nv el stale wk x) x in
    let r := mkMres (sr_out s) (store_var O m w (sr_x s)) (sr_log s) (sr_trace s) in
    is_ub (snd (psolve O o pb nz nl nv el stale wk x)) = false ->
    (forall out y, snd (psolve O o pb nz nl nv el stale wk x) = Ok (out, y) ->
        resid m y (rsd_norm O (pb_pnr pb y)) /\
        resid (store_var O m w y) y (rsd_norm O (pr y))) ->
    as_if_copied O m w (p_max_newton o) resid v r /\
    (sr_trace s = sr_trace v /\ sr_x s = sr_x v) /\
    ((forall out y, snd (psolve O o pb nz nl nv el stale wk x) = Ok (out, y) -> pr y = pb_pnr pb y) ->
     me_out r = sr_out v /\ me_log r = sr_log v).
  Proof.
    intros (L1 & _). cbv zeta. intros NU HR.
    pose proof (psolve_rel O o pb pr nz nl nv el stale wk (load_var m w)) as PR.
    specialize (PR ltac:(lia)).
    destruct (psolve O o pb nz nl nv el stale wk (load_var m w)) as [[lg1 tr1] [[o1 x1]|e1|u1]];
    destruct (psolve_shared O o pb pr nz nl nv el stale wk (load_var m w)) as [[lg2 tr2] [[o2 x2]|e2|u2]];
      cbn [shared_rel] in PR; try (exfalso; exact (proj2 PR)); try discriminate NU.
    - destruct PR as (<- & <- & PR). destruct (HR o1 x1 eq_refl) as [R1 R2].
      cbn [presult sr_out sr_x sr_log sr_trace me_out me_log me_mem].
      destruct PR as [(N & <- & <-)|(F & N & (S1 & S2 & S3 & S4 & S5) & Q1 & Q2 & cm & ms & -> & ->)].
      + split; [|split; auto].
        constructor; cbn [presult sr_out sr_x sr_log sr_trace me_out me_log me_mem]; try easy.
        intros b [= <-]. exists o1. repeat (split; [reflexivity|]). split; [auto|].
        intros F L. exfalso. destruct N as [N|N]; [congruence|lia].
      + split; [|split; auto].
        * constructor; cbn [presult sr_out sr_x sr_log sr_trace me_out me_log me_mem]; try easy.
          intros b [= <-]. exists o1. repeat (split; [easy|]). split.
          { intros [E|E]; [congruence|lia]. }
          intros _ _. rewrite Q1, Q2. split; [exact R2|]. split; [exact R1|].
          rewrite !removelast_final. reflexivity.
        * intro E. rewrite (E o1 x1 eq_refl) in *. split; [|reflexivity]. f_equal.
          destruct o1, o2; cbn in *; congruence.
    - destruct PR as (<- & <- & <-).
      cbn [presult sr_out sr_x sr_log sr_trace me_out me_log me_mem].
      split; [|split; auto].
      constructor; cbn [presult sr_out sr_x sr_log sr_trace me_out me_log me_mem]; try easy.
      intros e _ a. apply store_load_back.
  Qed.
End Run.

(* the problem found in memory m *)
Definition dense_at {T} (O : Ops T) (m : memory T) (q : dense_view) : res (dense_data T) :=
  DenseData_ctor O (Some (q_H (load_dense m q))) (Some (q_f (load_dense m q)))
                   (Some (q_G (load_dense m q))) (Some (q_h (load_dense m q)))
                   (Some (q_A (load_dense m q))) (Some (q_b (load_dense m q))).
Definition mpc_at {T} (O : Ops T) (m : memory T) (q : mpc_view) : res (mpc_data T) :=
  MpcData_ctor O (load_mpc m q).

(* e is the KKT residual norm of x for the problem found in memory m *)
Definition residual_at {T D} (O : Ops T) (DI : DataI T D) (pb : memory T -> res D)
           (nz nl nv : nat) (alpha : T) (m : memory T) (x : var T) (e : T) : Prop :=
  exists d, pb m = Ok d /\ kkt_residual O DI d nz nl nv alpha x = Ok e.

Section Dense.
  Context {T : Type} (O : Ops T) (LA : LinAlg T).

  Lemma residual_ok {D} (DI : DataI T D) d nz nl nv pinit pst o x :
    DataOk DI d nz nl nv -> var_ok nz nl nv x ->
    kkt_residual O DI d nz nl nv (p_alpha o) x =
      Ok (rsd_norm O (pb_pnr (prob_of O DI d nz nl nv pinit pst o) x)).
  Proof.
    intros HD Hx. unfold kkt_residual.
    destruct (pnr_ok O DI d nz nl nv (pinit:=pinit) (pst:=pst) HD o x _ Hx (blank_rok O nz nl nv)) as [E _].
    unfold FV, FR in E. unfold at_point, blank_residual. rewrite E. reflexivity.
  Qed.

  Lemma dense_at_any (m m' : memory T) q d : dense_at O m q = Ok d ->
    exists fn, dense_at O m' q =
      Ok (mkDD (dd_nz d) (dd_nl d) (dd_nv d) fn (load_mat m' (dv_H q)) (load_mat m' (dv_G q))
               (load_mat m' (dv_A q)) (load m' (dv_f q)) (load m' (dv_h q)) (load m' (dv_b q))).
  Proof.
    unfold dense_at, DenseData_ctor, load_dense, load_mat.
    cbn [q_H q_f q_G q_h q_A q_b arg rbind mr mc]. rewrite !load_len. intro H.
    repeat match goal with H : context [throw_unless ?b _] |- _ => destruct b; cbn [throw_unless rbind] in H |- *; [|discriminate H] end.
    injection H as <-. cbn [dd_nz dd_nl dd_nv]. eexists. reflexivity.
  Qed.

  Theorem C61_dense_memory : forall nz nl nv s m q w el,
    dense_reach O LA nz nl nv s -> sp_len (vv_y w) = Z.to_nat nv ->
    as_if_copied O m w (p_max_newton (ds_options s))
      (residual_at O (denseDI O) (fun m' => dense_at O m' q) (Z.to_nat nz) (Z.to_nat nl) (Z.to_nat nv)
                   (p_alpha (ds_options s)))
      (snd (FBstabDense_Solve O LA s (load_dense m q) Mapped (load_var m w) el))
      (snd (FBstabDense_SolveRef O LA s m q w el)).
  Proof.
    intros nz nl nv s m q w el Hr Hy.
    pose proof (dense_reach_inv _ _ _ _ _ _ Hr) as Hi.
    destruct (dense_at O m q) as [d|e|u] eqn:EC; unfold dense_at in EC.
    2,3: unfold FBstabDense_SolveRef, FBstabDense_Solve; rewrite EC; constructor;
      cbn [snd sr_out me_out me_mem]; auto; easy.
    destruct (dense_validate s d (load_var m w)) as [[]|e|u] eqn:EV.
    2,3: unfold FBstabDense_SolveRef, FBstabDense_Solve; rewrite EC, EV; constructor;
      cbn [snd sr_out me_out me_mem]; auto; easy.
    assert (Hf : y_fits Mapped (load_var m w) (Z.to_nat nv)) by (cbn; rewrite load_len; exact Hy).
    destruct (dense_call O LA nz nl nv s _ d Mapped _ el Hi EC EV Hf) as (Hok & -> & NU & V & _).
    destruct (dense_call_ref O LA nz nl nv s m q d w el Hi EC EV Hy) as (-> & _).
    apply run_as_copied.
    - eapply dense_limits; eauto.
    - exact NU.
    - intros out y E. specialize (V out y E).
      destruct (dense_ctor_ok _ _ _ EC) as (_ & D1 & D2 & D3 & D4 & D5 & D6).
      split.
      + exists d. split; [exact EC|]. apply residual_ok; [|exact V]. apply dense_data_ok. exact Hok.
      + destruct (dense_at_any m (store_var O m w y) q d EC) as [fn E2].
        eexists. split; [exact E2|].
        rewrite (residual_ok (denseDI O) _ _ _ _ (d_pinit O LA d (Z.to_nat nz) (Z.to_nat nl) (Z.to_nat nv))
                   (d_pst O LA d (Z.to_nat nz) (Z.to_nat nl) (Z.to_nat nv))); [reflexivity| |exact V].
        apply (dense_data_ok O).
        pose proof (reload_dense_ok O m (store_var O m w y) q d _ _ _ EC Hok) as [R1 R2 R3 R4 R5 R6 R7 R8 R9].
        constructor; assumption.
  Qed.

  Lemma dense_apart m w q (x : var T) : all_apart (vars_of w) (spans_of_dense q) ->
    load_dense (store_var O m w x) q = load_dense m q.
  Proof.
    intro H.
    assert (K : forall t, In t (spans_of_dense q) -> load (store_var O m w x) t = load m t).
    { intros t Ht. apply load_ext. intros a Ha. apply store_var_frame.
      intros sp Hsp Hin. exact (H sp t Hsp Ht a Hin Ha). }
    unfold load_dense, load_mat, spans_of_dense, mspan in *.
    rewrite !K by (cbn; auto 10). reflexivity.
  Qed.

  (* no overlap between data and results: Solve is the same as on private copies, and the
     problem data is left as it was *)
  Theorem C61_dense_apart : forall nz nl nv s m q w el,
    dense_reach O LA nz nl nv s -> sp_len (vv_y w) = Z.to_nat nv ->
    all_apart (vars_of w) (spans_of_dense q) ->
    let v := snd (FBstabDense_Solve O LA s (load_dense m q) Mapped (load_var m w) el) in
    let r := snd (FBstabDense_SolveRef O LA s m q w el) in
    me_out r = sr_out v /\ me_log r = sr_log v /\ load_dense (me_mem r) q = load_dense m q /\
    (vars_apart w -> load_var (me_mem r) w = sr_x v).
  Proof.
    intros nz nl nv s m q w el Hr Hy Hap. cbv zeta.
    pose proof (dense_reach_inv _ _ _ _ _ _ Hr) as Hi.
    destruct (dense_at O m q) as [d|e|u] eqn:EC; unfold dense_at in EC.
    2,3: unfold FBstabDense_SolveRef, FBstabDense_Solve; rewrite EC; cbn [snd sr_out me_out me_mem sr_x sr_log me_log]; auto.
    destruct (dense_validate s d (load_var m w)) as [[]|e|u] eqn:EV.
    2,3: unfold FBstabDense_SolveRef, FBstabDense_Solve; rewrite EC, EV; cbn [snd sr_out me_out me_mem sr_x sr_log me_log]; auto.
    assert (Hf : y_fits Mapped (load_var m w) (Z.to_nat nv)) by (cbn; rewrite load_len; exact Hy).
    destruct (dense_call O LA nz nl nv s _ d Mapped _ el Hi EC EV Hf) as (Hok & -> & NU & V & _).
    destruct (dense_call_ref O LA nz nl nv s m q d w el Hi EC EV Hy) as (-> & _).
    destruct (dense_validate_ok _ _ _ _ _ _ Hi EV) as (_ & _ & _ & G1 & G2 & G3).
    pose proof (dense_limits O LA _ _ _ _ Hr) as Hlim.
    match goal with |- context [psolve_shared O _ ?pb ?pr ?a ?b ?c _ ?st ?wk _] =>
      destruct (run_as_copied O (ds_options s) pb pr a b c el st wk m w (fun _ _ _ => True) Hlim NU)
        as (AC & (_ & EX) & EQ); [auto|];
      assert (PX : forall y, pr y = pb_pnr pb y)
    end.
    { intro y. unfold closing.
      assert (RD : reload_dense d q (store_var O m w y) = d).
      { pose proof (dense_apart m w q y Hap) as LD.
        destruct (dense_ctor_ok _ _ _ EC) as (_ & D1 & D2 & D3 & D4 & D5 & D6).
        unfold load_dense in LD. injection LD as E1 E2 E3 E4 E5 E6. unfold load_dense in D1, D2, D3, D4, D5, D6.
        cbn [q_H q_f q_G q_h q_A q_b] in D1, D2, D3, D4, D5, D6.
        unfold reload_dense, load_mat. rewrite E1, E2, E3, E4, E5, E6.
        destruct d as [a1 a2 a3 a4 a5 a6 a7 a8 a9 a10]; cbn in *. subst. reflexivity. }
      rewrite RD. reflexivity. }
    destruct (EQ (fun _ y _ => PX y)) as [EQ1 EQ2].
    split; [exact EQ1|]. split; [exact EQ2|]. split; [apply dense_apart; exact Hap|].
    intro VA. cbn [me_mem]. rewrite EX.
    destruct (presult_sizes _ (load_var m w) _ _ _ V) as (L1 & L2 & L3 & L4).
    { repeat split; [exact G1|exact G2|exact G3|cbn [load_var v_y]; rewrite load_len; exact Hy]. }
    unfold load_var in G1, G2, G3. cbn [v_z v_l v_v] in G1, G2, G3. rewrite load_len in G1, G2, G3.
    apply store_var_all; congruence.
  Qed.

  (* what the memory holds after a normal return *)
  Theorem C61_dense_written : forall nz nl nv s m q w el b,
    dense_reach O LA nz nl nv s -> sp_len (vv_y w) = Z.to_nat nv ->
    let v := snd (FBstabDense_Solve O LA s (load_dense m q) Mapped (load_var m w) el) in
    let r := snd (FBstabDense_SolveRef O LA s m q w el) in
    me_out r = Ok b -> written m w (sr_x v) (me_mem r).
  Proof.
    intros nz nl nv s m q w el b Hr Hy v r E.
    destruct (C61_dense_memory nz nl nv s m q w el Hr Hy) as [_ _ _ AO].
    destruct (AO b E) as (a & EA & _ & _ & _ & _ & _ & EM & _).
    fold r v in EM. rewrite EM.
    assert (SZ : var_ok (sp_len (vv_z w)) (sp_len (vv_l w)) (sp_len (vv_v w)) (sr_x v) /\ sp_len (vv_v w) = sp_len (vv_y w)).
    { pose proof (dense_reach_inv _ _ _ _ _ _ Hr) as Hi. unfold v in EA |- *.
      destruct (dense_at O m q) as [d|e|u] eqn:EC; unfold dense_at in EC.
      2,3: unfold FBstabDense_Solve in EA; rewrite EC in EA; discriminate EA.
      destruct (dense_validate s d (load_var m w)) as [[]|e|u] eqn:EV.
      2,3: unfold FBstabDense_Solve in EA; rewrite EC, EV in EA; discriminate EA.
      assert (Hf : y_fits Mapped (load_var m w) (Z.to_nat nv)) by (cbn; rewrite load_len; exact Hy).
      destruct (dense_call O LA nz nl nv s _ d Mapped _ el Hi EC EV Hf) as (_ & -> & NU & V & _).
      destruct (dense_validate_ok _ _ _ _ _ _ Hi EV) as (_ & _ & _ & G1 & G2 & G3).
      cbn [load_var v_z v_l v_v] in G1, G2, G3. rewrite load_len in G1, G2, G3.
      rewrite G1, G2, G3. split; [|congruence]. apply (presult_sizes _ _ _ _ _ V).
      repeat split; cbn [load_var v_z v_l v_v v_y]; rewrite load_len; assumption. }
    destruct SZ as [(L1 & L2 & L3 & L4) EY]. apply written_store; congruence.
  Qed.
End Dense.

Section Mpc.
  Context {T : Type} (O : Ops T) (LA : LinAlg T).
  Hypothesis zero_eq : o_eqb O (o_zero O) (o_zero O) = true.

  Lemma seq_valid_any (m m' : memory T) v : seq_valid (load_seq m v) -> seq_valid (load_seq m' v).
  Proof.
    unfold seq_valid, load_seq. cbn [mp_N mp_nr mp_nc mp_mem]. intros (A & B & C & E & F).
    repeat (split; [assumption|]). intro P. destruct (F P) as (mem & EM & L).
    eexists. split; [reflexivity|]. injection EM as <-. rewrite load_len in *. exact L.
  Qed.
  Lemma seqs_valid_any (m m' : memory T) q : seqs_valid (load_mpc m q) -> seqs_valid (load_mpc m' q).
  Proof.
    intros [V1 V2 V3 V4 V5 V6 V7 V8 V9 V10 V11].
    constructor; cbn [load_mpc m_Q m_R m_S m_q m_r m_A m_B m_c m_E m_L m_d] in *;
      eapply seq_valid_any; eassumption.
  Qed.

  Lemma mpc_at_any (m m' : memory T) q d : seqs_valid (load_mpc m q) -> single_columns (load_mpc m q) ->
    mpc_fits (load_mpc m q) -> mpc_at O m q = Ok d ->
    exists fn, mpc_at O m' q = Ok (mkMD (md_N d) (md_nx d) (md_nu d) (md_nc d) (md_nz d) (md_nl d)
                                        (md_nv d) fn (load_mpc m' q)).
  Proof.
    intros Hs Hc Hf E. unfold mpc_at in *.
    assert (VV : mpc_validate (load_mpc m' q) = mpc_validate (load_mpc m q)).
    { unfold mpc_validate, load_mpc, load_seq. cbn [m_Q m_R m_S m_q m_r m_A m_B m_c m_E m_L m_d m_x0 mp_N mp_nr mp_nc].
      rewrite !load_len. reflexivity. }
    assert (CS : exists d', MpcData_ctor O (load_mpc m' q) = Ok d').
    { apply ctor_total; [eapply seqs_valid_any; eassumption|exact Hf|].
      destruct (validate_cases (load_mpc m' q)) as [[_ K]|[K _]]; [exact K|].
      rewrite VV in K. unfold MpcData_ctor in E. rewrite K in E. discriminate E. }
    destruct CS as [d' E'].
    destruct (mpc_ctor_ok O _ _ Hs Hc E) as (K1 & M1 & D1 & D2 & D3 & D4).
    destruct (mpc_ctor_ok O _ _ (seqs_valid_any m m' q Hs) Hc E') as (K2 & M2 & F1 & F2 & F3 & F4).
    assert (G1 : md_N d' = md_N d) by (apply Nat2Z.inj; rewrite D1, F1; reflexivity).
    assert (G2 : md_nx d' = md_nx d) by (apply Nat2Z.inj; rewrite D2, F2; reflexivity).
    assert (G3 : md_nu d' = md_nu d) by (apply Nat2Z.inj; rewrite D3, F3; reflexivity).
    assert (G4 : md_nc d' = md_nc d) by (apply Nat2Z.inj; rewrite D4, F4; reflexivity).
    pose proof (mo_nz _ _ _ _ _ K1) as Z1. pose proof (mo_nz _ _ _ _ _ K2) as Z2.
    pose proof (mo_nl _ _ _ _ _ K1) as L1. pose proof (mo_nl _ _ _ _ _ K2) as L2.
    pose proof (mo_nv _ _ _ _ _ K1) as V1. pose proof (mo_nv _ _ _ _ _ K2) as V2.
    exists (md_fnorm d'). rewrite E'. f_equal. destruct d', d. cbn in *. subst.
    f_equal; congruence.
  Qed.

  Theorem C61_mpc_memory : forall N nx nu nc s m q w el,
    mpc_reach O LA N nx nu nc s -> seqs_valid (load_mpc m q) -> single_columns (load_mpc m q) ->
    mpc_fits (load_mpc m q) ->
    as_if_copied O m w (p_max_newton (mps_options s))
      (residual_at O (mpcDI O) (fun m' => mpc_at O m' q) (Z.to_nat ((N + 1) * (nx + nu)))
                   (Z.to_nat ((N + 1) * nx)) (Z.to_nat ((N + 1) * nc)) (p_alpha (mps_options s)))
      (snd (FBstabMpc_Solve O LA s (load_mpc m q) Mapped (load_var m w) el))
      (snd (FBstabMpc_SolveRef O LA s m q w el)).
  Proof.
    intros N nx nu nc s m q w el Hr Hs Hc Hf.
    pose proof (mpc_reach_inv _ _ zero_eq _ _ _ _ _ Hr) as Hi.
    destruct (MpcData_ctor O (load_mpc m q)) as [d|e|u] eqn:EC.
    2,3: unfold FBstabMpc_SolveRef, FBstabMpc_Solve; rewrite EC; constructor;
      cbn [snd sr_out me_out me_mem]; auto; easy.
    destruct (mpc_validate_inputs s d (load_var m w)) as [[]|e|u] eqn:EV.
    2,3: unfold FBstabMpc_SolveRef, FBstabMpc_Solve; rewrite EC, EV; constructor;
      cbn [snd sr_out me_out me_mem]; auto; easy.
    destruct (mpc_call O LA zero_eq N nx nu nc s _ d Mapped _ el Hi Hs Hc EC EV) as (Hok & -> & NU & V & _).
    destruct (mpc_call_ref O LA zero_eq N nx nu nc s m q d w el Hi Hs Hc EC EV) as (-> & _).
    destruct Hi as (_ & _ & _ & _ & _ & _ & _ & P1 & P2 & P3 & P4 & _).
    replace (Z.to_nat ((N + 1) * (nx + nu))) with (RiccatiOk.nz (Z.to_nat N) (Z.to_nat nx) (Z.to_nat nu))
      by (unfold RiccatiOk.nz; rewrite Z2Nat.inj_mul, !Z2Nat.inj_add by lia; reflexivity).
    replace (Z.to_nat ((N + 1) * nx)) with (RiccatiOk.nl (Z.to_nat N) (Z.to_nat nx))
      by (unfold RiccatiOk.nl; rewrite Z2Nat.inj_mul, !Z2Nat.inj_add by lia; reflexivity).
    replace (Z.to_nat ((N + 1) * nc)) with (RiccatiOk.nv (Z.to_nat N) (Z.to_nat nc))
      by (unfold RiccatiOk.nv; rewrite Z2Nat.inj_mul, !Z2Nat.inj_add by lia; reflexivity).
    apply run_as_copied.
    - eapply mpc_limits; eauto.
    - exact NU.
    - intros out y E. specialize (V out y E).
      destruct (mpc_ctor_ok O _ _ Hs Hc EC) as (_ & M1 & _).
      split.
      + exists d. split; [exact EC|]. apply residual_ok; [|exact V]. apply mpc_data_ok. exact Hok.
      + destruct (mpc_at_any m (store_var O m w y) q d Hs Hc Hf EC) as [fn E2].
        eexists. split; [exact E2|].
        rewrite (residual_ok O (mpcDI O) _ _ _ _ (m_pinit O LA d (Z.to_nat N) (Z.to_nat nx) (Z.to_nat nu) (Z.to_nat nc))
                   (m_pst O LA d (Z.to_nat N) (Z.to_nat nx) (Z.to_nat nu) (Z.to_nat nc))); [reflexivity| |exact V].
        apply (mpc_data_ok O).
        pose proof (reload_mpc_ok m (store_var O m w y) q d _ _ _ _ M1 Hok)
          as [R1 R2 R3 R4 R5 R6 R7 R8 R9 R10 R11 R12 R13 R14 R15 R16 R17 R18 R19].
        constructor; assumption.
  Qed.

  Lemma mpc_apart m w q (x : var T) : all_apart (vars_of w) (spans_of_mpc q) ->
    load_mpc (store_var O m w x) q = load_mpc m q.
  Proof.
    intro H.
    assert (K : forall t, In t (spans_of_mpc q) -> load (store_var O m w x) t = load m t).
    { intros t Ht. apply load_ext. intros a Ha. apply store_var_frame.
      intros sp Hsp Hin. exact (H sp t Hsp Ht a Hin Ha). }
    unfold load_mpc, load_seq, spans_of_mpc, sspan in *.
    rewrite !K by (cbn; auto 20). reflexivity.
  Qed.

  Theorem C61_mpc_apart : forall N nx nu nc s m q w el,
    mpc_reach O LA N nx nu nc s -> seqs_valid (load_mpc m q) -> single_columns (load_mpc m q) ->
    all_apart (vars_of w) (spans_of_mpc q) ->
    let v := snd (FBstabMpc_Solve O LA s (load_mpc m q) Mapped (load_var m w) el) in
    let r := snd (FBstabMpc_SolveRef O LA s m q w el) in
    me_out r = sr_out v /\ me_log r = sr_log v /\ load_mpc (me_mem r) q = load_mpc m q /\
    (vars_apart w -> load_var (me_mem r) w = sr_x v).
  Proof.
    intros N nx nu nc s m q w el Hr Hs Hc Hap. cbv zeta.
    pose proof (mpc_reach_inv _ _ zero_eq _ _ _ _ _ Hr) as Hi.
    destruct (MpcData_ctor O (load_mpc m q)) as [d|e|u] eqn:EC.
    2,3: unfold FBstabMpc_SolveRef, FBstabMpc_Solve; rewrite EC; cbn [snd sr_out me_out me_mem sr_x sr_log me_log]; auto.
    destruct (mpc_validate_inputs s d (load_var m w)) as [[]|e|u] eqn:EV.
    2,3: unfold FBstabMpc_SolveRef, FBstabMpc_Solve; rewrite EC, EV; cbn [snd sr_out me_out me_mem sr_x sr_log me_log]; auto.
    destruct (mpc_call O LA zero_eq N nx nu nc s _ d Mapped _ el Hi Hs Hc EC EV) as (Hok & -> & NU & V & _).
    destruct (mpc_call_ref O LA zero_eq N nx nu nc s m q d w el Hi Hs Hc EC EV) as (-> & _).
    destruct (mpc_validate_ok _ _ _ _ _ _ _ Hi EV) as (_ & _ & _ & _ & G). cbv zeta in G.
    pose proof (mpc_limits O LA zero_eq _ _ _ _ _ Hr) as Hlim.
    match goal with |- context [psolve_shared O _ ?pb ?pr ?a ?b ?c _ ?st ?wk _] =>
      destruct (run_as_copied O (mps_options s) pb pr a b c el st wk m w (fun _ _ _ => True) Hlim NU)
        as (AC & (_ & EX) & EQ); [auto|];
      assert (PX : forall y, pr y = pb_pnr pb y)
    end.
    { intro y. unfold closing.
      assert (RD : reload_mpc d q (store_var O m w y) = d).
      { destruct (mpc_ctor_ok O _ _ Hs Hc EC) as (_ & M1 & _).
        unfold reload_mpc. rewrite (mpc_apart m w q y Hap), <- M1. destruct d; reflexivity. }
      rewrite RD. reflexivity. }
    destruct (EQ (fun _ y _ => PX y)) as [EQ1 EQ2].
    split; [exact EQ1|]. split; [exact EQ2|]. split; [apply mpc_apart; exact Hap|].
    intro VA. cbn [me_mem]. rewrite EX.
    destruct (presult_sizes _ (load_var m w) _ _ _ V G) as (L1 & L2 & L3 & L4).
    destruct G as (G1 & G2 & G3 & G4).
    cbn [load_var v_z v_l v_v v_y] in G1, G2, G3, G4. rewrite load_len in G1, G2, G3, G4.
    apply store_var_all; congruence.
  Qed.

  Theorem C61_mpc_written : forall N nx nu nc s m q w el b,
    mpc_reach O LA N nx nu nc s -> seqs_valid (load_mpc m q) -> single_columns (load_mpc m q) ->
    mpc_fits (load_mpc m q) ->
    let v := snd (FBstabMpc_Solve O LA s (load_mpc m q) Mapped (load_var m w) el) in
    let r := snd (FBstabMpc_SolveRef O LA s m q w el) in
    me_out r = Ok b -> written m w (sr_x v) (me_mem r).
  Proof.
    intros N nx nu nc s m q w el b Hr Hs Hc Hf v r E.
    destruct (C61_mpc_memory N nx nu nc s m q w el Hr Hs Hc Hf) as [_ _ _ AO].
    destruct (AO b E) as (a & EA & _ & _ & _ & _ & _ & EM & _).
    fold r v in EM. rewrite EM.
    pose proof (mpc_reach_inv _ _ zero_eq _ _ _ _ _ Hr) as Hi. unfold v in EA |- *.
    destruct (MpcData_ctor O (load_mpc m q)) as [d|e|u] eqn:EC.
    2,3: unfold FBstabMpc_Solve in EA; rewrite EC in EA; discriminate EA.
    destruct (mpc_validate_inputs s d (load_var m w)) as [[]|e|u] eqn:EV.
    2,3: unfold FBstabMpc_Solve in EA; rewrite EC, EV in EA; discriminate EA.
    destruct (mpc_call O LA zero_eq N nx nu nc s _ d Mapped _ el Hi Hs Hc EC EV) as (_ & -> & NU & V & _).
    destruct (mpc_validate_ok _ _ _ _ _ _ _ Hi EV) as (_ & _ & _ & _ & G). cbv zeta in G.
    destruct (presult_sizes _ (load_var m w) _ _ _ V G) as (L1 & L2 & L3 & L4).
    destruct G as (G1 & G2 & G3 & G4).
    cbn [load_var v_z v_l v_v v_y] in G1, G2, G3, G4. rewrite load_len in G1, G2, G3, G4.
    apply written_store; congruence.
  Qed.
End Mpc.

(* VariableRef::fill: every entry of the four windows gets the value, nothing else changes *)
Theorem C61_fill : forall T (O : Ops T) (m : memory T) w a i,
  fill_var O m w a i = m i /\ (forall s, In s (vars_of w) -> ~ inside s i) \/
  fill_var O m w a i = a /\ (exists s, In s (vars_of w) /\ inside s i).
Proof.
  intros T O m w a i. unfold fill_var.
  assert (ST : forall m' s, store O m' s (vconst (sp_len s) a) i = m' i /\ ~ inside s i \/
                            store O m' s (vconst (sp_len s) a) i = a /\ inside s i).
  { intros m' s. destruct (inside_em s i) as [I|I].
    - right. split; [|exact I]. rewrite store_in by exact I. unfold inside in I.
      unfold vconst. rewrite vget_tab by lia. reflexivity.
    - left. split; [|exact I]. apply store_out. exact I. }
  set (m1 := store O m (vv_z w) _). set (m2 := store O m1 (vv_l w) _). set (m3 := store O m2 (vv_v w) _).
  destruct (ST m3 (vv_y w)) as [[E4 N4]|[E4 N4]].
  2: { right. split; [exact E4|]. exists (vv_y w). split; [cbn; auto|exact N4]. }
  destruct (ST m2 (vv_v w)) as [[E3 N3]|[E3 N3]]; fold m3 in E3.
  2: { right. split; [rewrite E4; exact E3|]. exists (vv_v w). split; [cbn; auto|exact N3]. }
  destruct (ST m1 (vv_l w)) as [[E2 N2]|[E2 N2]]; fold m2 in E2.
  2: { right. split; [rewrite E4, E3; exact E2|]. exists (vv_l w). split; [cbn; auto|exact N2]. }
  destruct (ST m (vv_z w)) as [[E1 N1]|[E1 N1]]; fold m1 in E1.
  2: { right. split; [rewrite E4, E3, E2; exact E1|]. exists (vv_z w). split; [cbn; auto|exact N1]. }
  left. split; [rewrite E4, E3, E2; exact E1|].
  intros s [<-|[<-|[<-|[<-|[]]]]]; assumption.
Qed.
