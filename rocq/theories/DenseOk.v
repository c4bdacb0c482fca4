(* The dense data class and the dense linear solver satisfy the laws [Refine.v] needs. *)
From Verif Require Export Refine.

Record dense_ok {T} (d : dense_data T) (nz nl nv : nat) : Prop := {
  do_Hr : mr (dd_H d) = nz; do_Hc : mc (dd_H d) = nz;
  do_Gr : mr (dd_G d) = nl; do_Gc : mc (dd_G d) = nz;
  do_Ar : mr (dd_A d) = nv; do_Ac : mc (dd_A d) = nz;
  do_f : length (dd_f d) = nz; do_h : length (dd_h d) = nl; do_b : length (dd_b d) = nv }.

Section DenseOk.
  Context {T : Type} (O : Ops T) (LA : LinAlg T).
  Context (d : dense_data T) (nz nl nv : nat) (Hd : dense_ok d nz nl nv).

  Lemma dense_gemv_ok Mx x a b y r c : mr Mx = r -> mc Mx = c -> length x = c -> length y = r ->
    rok r (dense_gemv O Mx x a b y).
  Proof.
    intros H1 H2 H3 H4. unfold dense_gemv, rok. rewrite H1, H2, H3, H4, !Nat.eqb_refl. cbn.
    eexists. split; [reflexivity|]. apply tab_length.
  Qed.
  Lemma dense_gemvT_ok Mx x a b y r c : mr Mx = r -> mc Mx = c -> length x = r -> length y = c ->
    rok c (dense_gemvT O Mx x a b y).
  Proof.
    intros H1 H2 H3 H4. unfold dense_gemvT, rok. rewrite H1, H2, H3, H4, !Nat.eqb_refl. cbn.
    eexists. split; [reflexivity|]. apply tab_length.
  Qed.
  Lemma dense_axpy_ok w a y n : length w = n -> length y = n -> rok n (dense_axpy O w a y).
  Proof.
    intros H1 H2. unfold dense_axpy, rok. rewrite H1, H2, !Nat.eqb_refl. cbn.
    eexists. split; [reflexivity|]. autorewrite with vlen. exact H2.
  Qed.

  Lemma dense_data_ok : DataOk (denseDI O) d nz nl nv.
  Proof.
    destruct Hd. constructor; intros; cbn;
      eauto using dense_gemv_ok, dense_gemvT_ok, dense_axpy_ok.
  Qed.

  (* the KKT matrix; the never-written block does not matter *)
  Definition dK (al sg : T) (x xb : var T) : mat T :=
    let gamma := w_gamma O al sg x xb nv in
    let mus := w_mus O al sg x xb nv in
    dense_K O (mkMat 0 0 []) (dense_E O d sg (w_Gamma O gamma mus) nz) (dd_G d) sg nz nl.

  Lemma symlow_K old E G sg :
    symlow O (dense_K O old E G sg nz nl) = symlow O (dense_K O (mkMat 0 0 []) E G sg nz nl).
  Proof.
    unfold symlow. cbn [mr dense_K mtab].
    unfold mtab. f_equal. apply tab_ext. intros k Hk.
    assert (Hn : nz + nl <> 0) by (intro Z; rewrite Z in Hk; cbn in Hk; lia).
    set (n := nz + nl) in *.
    assert (Hi : k mod n < n) by (apply Nat.mod_upper_bound; exact Hn).
    assert (Hj : k / n < n) by (apply Nat.div_lt_upper_bound; lia).
    set (i := k mod n) in *. set (j := k / n) in *. clearbody i j.
    unfold dense_K. fold n.
    destruct (Nat.leb_spec j i); rewrite !mget_mtab by lia;
      repeat match goal with |- context [?a <? ?b] => destruct (Nat.ltb_spec a b); try lia end;
      reflexivity.
  Qed.

  Definition d_lsize (c : dchol T) : Prop := dc_nz c = nz /\ dc_nl c = nl /\ dc_nv c = nv.
  Definition d_ready (al : T) (c : dchol T) : Prop :=
    d_lsize c /\ dc_alpha c = al /\ dc_data c = PLive d.
  Definition d_pinit (al sg : T) (x xb : var T) : res bool :=
    if o_leb O sg (o_zero O) then Throw ESigma else Ok (la_ldlt_ok LA (symlow O (dK al sg x xb))).
  Definition d_pst (al sg : T) (x xb : var T) (r : rsd T) : var T :=
    dense_step O LA d (dK al sg x xb) (w_gamma O al sg x xb nv) (w_mus O al sg x xb nv) r nz nl.

  Lemma dense_step_K K K' g m r : symlow O K = symlow O K' ->
    dense_step O LA d K g m r nz nl = dense_step O LA d K' g m r nz nl.
  Proof. intro E. unfold dense_step. rewrite E. reflexivity. Qed.

  Lemma dense_ls_ok : LSOk (denseLS O LA) d nz nl nv d_lsize d_ready d_pinit d_pst.
  Proof.
    constructor.
    - intros al l H. unfold d_ready, d_lsize in *; cbn. auto.
    - intros al l H. apply H.
    - intros l H. exact H.
    - intros al sg c x xb ((H1 & H2 & H3) & H4 & H5) (X1 & X2 & X3 & X4) (B1 & B2 & B3 & B4).
      destruct c as [n p q al' dp K g m]; cbn in H1, H2, H3, H4, H5. subst n p q al' dp.
      destruct Hd as [Hr Hc Gr Gc Ar Ac Hf Hh Hb].
      cbn [denseLS ls_init ls_solve]. unfold dc_init, FV; cbn [dc_nz dc_nl dc_nv dc_data dc_alpha dc_K].
      cbn [deref_checked rbind fv_same fv_nz fv_nl fv_nv fv_x]. unfold fv_same; cbn [fv_nz fv_nl fv_nv].
      rewrite !Nat.eqb_refl. cbn [andb throw_unless rbind]. unfold d_pinit.
      destruct (o_leb O sg (o_zero O)); cbn [negb throw_unless rbind].
      + eexists. split; [reflexivity|]. split; [|discriminate].
        unfold d_ready, d_lsize; cbn. auto.
      + rewrite Hr, Hc, Gr, Gc, Ar, Ac, X4, X3, B3, !Nat.eqb_refl, Nat.leb_refl.
        cbn [andb ub_unless rbind].
        eexists. split; [|split].
        * rewrite symlow_K. reflexivity.
        * unfold d_ready, d_lsize; cbn. auto.
        * intros _ r dx (R1 & R2 & R3) (D1 & D2 & D3 & D4).
          unfold dc_solve, fr_same, FR; cbn [fv_nz fv_nl fv_nv fr_nz fr_nl fr_nv].
          cbn [dc_nz dc_nl dc_nv dc_data dc_mus dc_K dc_gamma].
          rewrite !Nat.eqb_refl. cbn [andb throw_unless rbind deref fr_r].
          rewrite R1, R2, R3, Ac, Ar, Hb. unfold w_mus at 1; rewrite tab_length.
          unfold dense_K at 1; cbn [mr mtab]. rewrite !Nat.eqb_refl. cbn [andb ub_unless rbind].
          split.
          -- do 2 f_equal. unfold fv_set; cbn [fv_nz fv_nl fv_nv fv_data]. f_equal.
             unfold d_pst. apply dense_step_K. apply symlow_K.
          -- unfold d_pst, dense_step, var_ok; cbn [v_z v_l v_v v_y]. autorewrite with vlen.
             unfold w_mus. rewrite tab_length. auto.
    - intros al sg x xb u _ _. unfold d_pinit. destruct (o_leb O sg (o_zero O)); discriminate.
  Qed.
End DenseOk.
