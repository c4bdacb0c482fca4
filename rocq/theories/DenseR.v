(* Over the reals a DenseData object behaves as the QP whose matrices it was given. *)
From Verif Require Export RComp DenseOk.
Local Open Scope R_scope.

(* the QP of six matrices and vectors *)
Definition qp_of (H : mat R) (f : vec R) (G : mat R) (h : vec R) (A : mat R) (b : vec R) : QP :=
  mkQP (length f) (length h) (length b) (rm H) (rg f) (rm G) (rg h) (rm A) (rg b).
Definition dense_qp_of (d : dense_data R) : QP :=
  qp_of (dd_H d) (dd_f d) (dd_G d) (dd_h d) (dd_A d) (dd_b d).

Lemma gemv_R M x a b y n m : mr M = n -> mc M = m -> length x = m -> length y = n ->
  exists r, dense_gemv Rops M x a b y = Ok r /\ length r = n /\
  forall i, (i < n)%nat -> rg r i = a * times m (rm M) (rg x) i + b * rg y i.
Proof.
  intros H1 H2 H3 H4. unfold dense_gemv. rewrite H1, H2, H3, H4, !Nat.eqb_refl. cbn [andb ub_unless rbind].
  eexists. split; [reflexivity|]. split; [apply tab_length|]. intros i Hi.
  rewrite (vget_tab Rops) by exact Hi. rewrite mv_entry by congruence. rewrite H2. reflexivity.
Qed.
Lemma gemvT_R M x a b y n m : mr M = n -> mc M = m -> length x = n -> length y = m ->
  exists r, dense_gemvT Rops M x a b y = Ok r /\ length r = m /\
  forall i, (i < m)%nat -> rg r i = a * ttimes n (rm M) (rg x) i + b * rg y i.
Proof.
  intros H1 H2 H3 H4. unfold dense_gemvT. rewrite H1, H2, H3, H4, !Nat.eqb_refl. cbn [andb ub_unless rbind].
  eexists. split; [reflexivity|]. split; [apply tab_length|]. intros i Hi.
  rewrite (vget_tab Rops) by exact Hi. rewrite mtv_entry by congruence. rewrite H1. reflexivity.
Qed.
Lemma axpy_R w a y n : length w = n -> length y = n ->
  exists r, dense_axpy Rops w a y = Ok r /\ length r = n /\
  forall i, (i < n)%nat -> rg r i = a * rg w i + rg y i.
Proof.
  intros H1 H2. unfold dense_axpy. rewrite H1, H2, Nat.eqb_refl. cbn [ub_unless rbind].
  eexists. split; [reflexivity|]. split; [autorewrite with vlen; exact H2|]. intros i Hi.
  unfold vaxpy. rewrite H2, (vget_tab Rops) by exact Hi. cbn [o_add o_mul Rops]. lra.
Qed.

Lemma dense_explicit_gen d nz nl nv : dense_ok d nz nl nv ->
  dd_fnorm d = sqrt (vsqnorm Rops (dd_b d) + vsqnorm Rops (dd_f d) + vsqnorm Rops (dd_h d)) ->
  Explicit (denseDI Rops) d (dense_qp_of d).
Proof.
  intros [Hr Hc Gr Gc Ar Ac Hf Hh Hb] Hn.
  constructor; cbn [n_z n_l n_v cH cf cG ch cA cb dense_qp_of qp_of denseDI di_gemvH di_gemvA di_gemvG
    di_gemvAT di_gemvGT di_axpyf di_axpyh di_axpyb di_fnorm]; rewrite ?Hf, ?Hh, ?Hb; intros;
    try (apply gemv_R; assumption); try (apply gemvT_R; assumption); try (apply axpy_R; assumption).
  rewrite Hn, !sqnorm_rsum, Hf, Hh, Hb. f_equal. lra.
Qed.

(* DenseData's constructor *)
Lemma dense_explicit H f G h A b d :
  DenseData_ctor Rops (Some H) (Some f) (Some G) (Some h) (Some A) (Some b) = Ok d ->
  d = mkDD (length f) (length h) (length b) (dd_fnorm d) H G A f h b /\
  Explicit (denseDI Rops) d (qp_of H f G h A b).
Proof.
  unfold DenseData_ctor. cbn [arg rbind].
  destruct (_ && _) eqn:E1; cbn [throw_unless rbind]; [|discriminate].
  destruct ((mc A =? _)%nat && _) eqn:E2; cbn [throw_unless rbind]; [|discriminate].
  destruct ((mc G =? _)%nat && _) eqn:E3; cbn [throw_unless rbind]; [|discriminate].
  intro E. apply andb_prop in E1. apply andb_prop in E2. apply andb_prop in E3.
  destruct E1 as [E1 E1']. destruct E2 as [E2 E2']. destruct E3 as [E3 E3'].
  apply Nat.eqb_eq in E1, E1', E2, E2', E3, E3'. injection E as <-. split; [reflexivity|].
  match goal with |- Explicit _ ?dd _ => change (Explicit (denseDI Rops) dd (dense_qp_of dd)) end.
  apply (dense_explicit_gen _ (length f) (length h) (length b)).
  - constructor; cbn; congruence.
  - reflexivity.
Qed.
