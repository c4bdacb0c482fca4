(* Block index arithmetic: products with the explicit QP matrices of an OCP, stage by stage. *)
From Verif Require Export OCPSpec.
Local Open Scope R_scope.

Lemma blk_div k r w : (r < w)%nat -> ((k * w + r) / w)%nat = k.
Proof. intro H. rewrite Nat.div_add_l by lia. rewrite Nat.div_small by exact H. lia. Qed.
Lemma blk_mod k r w : (r < w)%nat -> ((k * w + r) mod w)%nat = r.
Proof. intro H. rewrite Nat.add_comm, Nat.mod_add by lia. apply Nat.mod_small. exact H. Qed.
(* every flat index is (stage, offset) *)
Lemma flat N w (Pr : nat -> Prop) :
  (forall k r, (k < N)%nat -> (r < w)%nat -> Pr (k * w + r)%nat) -> forall p, (p < N * w)%nat -> Pr p.
Proof.
  intros H p Hp. assert (w <> 0)%nat by lia.
  rewrite (Nat.div_mod p w) by assumption. rewrite Nat.mul_comm.
  apply H; [apply Nat.div_lt_upper_bound; lia|apply Nat.mod_upper_bound; assumption].
Qed.
Lemma rsum_two n a b f : (a < n)%nat -> (b < n)%nat -> a <> b ->
  (forall i, (i < n)%nat -> i <> a -> i <> b -> f i = 0) -> rsum n f = f a + f b.
Proof.
  intros Ha Hb E H.
  rewrite (rsum_ext n f (fun i => (if Nat.eqb i a then f a else 0) + (if Nat.eqb i b then f b else 0))).
  - rewrite rsum_add, (rsum_if_eq n a (fun _ => f a)), (rsum_if_eq n b (fun _ => f b)) by assumption. reflexivity.
  - intros i Hi. destruct (Nat.eqb_spec i a) as [Na|Na]; destruct (Nat.eqb_spec i b) as [Nb|Nb].
    + exfalso. apply E. rewrite <- Na. exact Nb.
    + rewrite Na. ring.
    + rewrite Nb. ring.
    + rewrite H by assumption. ring.
Qed.

Section Facts.
  Variable o : OCP.
  Notation N := (oN o). Notation nx := (onx o). Notation nu := (onu o). Notation nc := (onc o).
  Notation w := (nx + nu)%nat. Notation P := (ocp_qp o).

  (* state and control blocks of a stacked vector *)
  Definition xs (z : nat -> R) (k i : nat) : R := z (k * w + i)%nat.
  Definition us (z : nat -> R) (k i : nat) : R := z (k * w + nx + i)%nat.
  Definition ls (l : nat -> R) (k i : nat) : R := l (k * nx + i)%nat.
  Definition vs (v : nat -> R) (k i : nat) : R := v (k * nc + i)%nat.

  Lemma split_w f : rsum w f = rsum nx f + rsum nu (fun i => f (nx + i)%nat).
  Proof. apply rsum_split. Qed.
  Lemma us_eq z k i : z (k * w + (nx + i))%nat = us z k i.
  Proof. unfold us. f_equal. lia. Qed.
  Lemma ltb_x i : (i < nx)%nat -> (i <? nx)%nat = true.
  Proof. apply Nat.ltb_lt. Qed.
  Lemma ltb_u i : (nx + i <? nx)%nat = false.
  Proof. apply Nat.ltb_ge. lia. Qed.
  Lemma sub_u i : (nx + i - nx)%nat = i. Proof. lia. Qed.

  (* row sums over one block *)
  Lemma block_row k (M : nat -> nat -> R) z r : (k < N + 1)%nat ->
    rsum ((N + 1) * w) (fun q => (if Nat.eqb k (q / w) then M r (q mod w)%nat else 0) * z q) =
    rsum w (fun j => M r j * z (k * w + j)%nat).
  Proof.
    intro Hk. rewrite rsum_blocks, (rsum_single (N + 1) k); [|exact Hk|
      intros i Hi E; apply rsum_zero; intros j Hj; rewrite blk_div by exact Hj;
       destruct (Nat.eqb_spec k i); [lia|ring]].
    apply rsum_ext. intros j Hj. rewrite blk_div, blk_mod, Nat.eqb_refl by exact Hj. reflexivity.
  Qed.

  (* (Hz) on the state part and on the control part of stage k *)
  Lemma H_x z k i : (k < N + 1)%nat -> (i < nx)%nat ->
    times (n_z P) (cH P) z (k * w + i) =
    times nx (cQ o k) (xs z k) i + ttimes nu (cS o k) (us z k) i.
  Proof.
    intros Hk Hi. unfold times at 1. cbn [n_z cH ocp_qp].
    rewrite blk_div, blk_mod by lia.
    rewrite (block_row k (stageH o k) z i Hk), split_w. f_equal.
    - apply rsum_ext. intros j Hj. unfold stageH. rewrite !ltb_x by assumption. reflexivity.
    - unfold ttimes. apply rsum_ext. intros j Hj. unfold stageH.
      rewrite ltb_x, ltb_u, sub_u, us_eq by assumption. reflexivity.
  Qed.
  Lemma H_u z k i : (k < N + 1)%nat -> (i < nu)%nat ->
    times (n_z P) (cH P) z (k * w + nx + i) =
    times nx (cS o k) (xs z k) i + times nu (cR o k) (us z k) i.
  Proof.
    intros Hk Hi. unfold times at 1. cbn [n_z cH ocp_qp].
    replace (k * w + nx + i)%nat with (k * w + (nx + i))%nat by lia. rewrite blk_div, blk_mod by lia.
    rewrite (block_row k (stageH o k) z (nx + i) Hk), split_w. f_equal.
    - apply rsum_ext. intros j Hj. unfold stageH. rewrite ltb_u, ltb_x, sub_u by assumption. reflexivity.
    - apply rsum_ext. intros j Hj. unfold stageH.
      rewrite !ltb_u, !sub_u, us_eq by assumption. reflexivity.
  Qed.
  Lemma A_row z k i : (k < N + 1)%nat -> (i < nc)%nat ->
    times (n_z P) (cA P) z (k * nc + i) =
    times nx (oE o k) (xs z k) i + times nu (oL o k) (us z k) i.
  Proof.
    intros Hk Hi. unfold times at 1. cbn [n_z cA ocp_qp].
    rewrite blk_div, blk_mod by lia.
    rewrite (block_row k (stageEL o k) z i Hk), split_w. f_equal.
    - apply rsum_ext. intros j Hj. unfold stageEL. rewrite !ltb_x by assumption. reflexivity.
    - apply rsum_ext. intros j Hj. unfold stageEL. rewrite !ltb_u, !sub_u, us_eq by assumption. reflexivity.
  Qed.
  (* columns of A *)
  Lemma AT_gen v k r : (k < N + 1)%nat -> (r < w)%nat ->
    ttimes (n_v P) (cA P) v (k * w + r) = rsum nc (fun i => stageEL o k i r * vs v k i).
  Proof.
    intros Hk Hi. unfold ttimes. cbn [n_v cA ocp_qp].
    rewrite rsum_blocks, (rsum_single (N + 1) k).
    - apply rsum_ext. intros i Hi'. rewrite !blk_div, !blk_mod, Nat.eqb_refl by lia. reflexivity.
    - exact Hk.
    - intros kk Hkk E. apply rsum_zero. intros j Hj. rewrite !blk_div by lia.
      destruct (Nat.eqb_spec kk k); [lia|ring].
  Qed.
  Lemma AT_x v k i : (k < N + 1)%nat -> (i < nx)%nat ->
    ttimes (n_v P) (cA P) v (k * w + i) = ttimes nc (oE o k) (vs v k) i.
  Proof.
    intros Hk Hi. rewrite AT_gen by lia. apply rsum_ext. intros. unfold stageEL. rewrite ltb_x by exact Hi. reflexivity.
  Qed.
  Lemma AT_u v k i : (k < N + 1)%nat -> (i < nu)%nat ->
    ttimes (n_v P) (cA P) v (k * w + nx + i) = ttimes nc (oL o k) (vs v k) i.
  Proof.
    intros Hk Hi. replace (k * w + nx + i)%nat with (k * w + (nx + i))%nat by lia.
    rewrite AT_gen by lia. apply rsum_ext. intros. unfold stageEL. rewrite ltb_u, sub_u. reflexivity.
  Qed.
  (* rows of G *)
  Lemma G_0 z i : (i < nx)%nat -> times (n_z P) (cG P) z i = - xs z 0 i.
  Proof.
    intro Hi. unfold times. cbn [n_z cG ocp_qp].
    assert (D : (i / nx)%nat = 0%nat) by (apply Nat.div_small; exact Hi).
    assert (M : (i mod nx)%nat = i) by (apply Nat.mod_small; exact Hi). rewrite D, M.
    rewrite rsum_blocks, (rsum_single (N + 1) 0).
    - rewrite (rsum_single w i).
      + rewrite blk_div, blk_mod by lia. rewrite !Nat.eqb_refl. unfold xs. cbn. ring.
      + lia.
      + intros j Hj E. rewrite blk_div, blk_mod by lia. apply Nat.eqb_neq in E. rewrite E. cbn. ring.
    - lia.
    - intros kk Hkk E. apply rsum_zero. intros j Hj. rewrite blk_div by lia.
      destruct (Nat.eqb_spec kk 0); [lia|]. cbn. ring.
  Qed.
  Lemma G_S z k i : (k < N)%nat -> (i < nx)%nat ->
    times (n_z P) (cG P) z (S k * nx + i) =
    times nx (oA o k) (xs z k) i + times nu (oB o k) (us z k) i - xs z (S k) i.
  Proof.
    intros Hk Hi. unfold times at 1. cbn [n_z cG ocp_qp]. rewrite blk_div, blk_mod by lia.
    rewrite rsum_blocks, (rsum_two (N + 1) k (S k)).
    - unfold Rminus. f_equal.
      + rewrite split_w. unfold times. f_equal; apply rsum_ext; intros j Hj; rewrite blk_div, blk_mod by lia;
          (destruct (Nat.eqb_spec k (S k)); [lia|]); rewrite Nat.eqb_refl; unfold stageAB.
        * rewrite ltb_x by exact Hj. reflexivity.
        * rewrite ltb_u, sub_u, us_eq. reflexivity.
      + rewrite (rsum_single w i).
        * rewrite blk_div, blk_mod by lia. rewrite !Nat.eqb_refl. unfold xs. ring.
        * lia.
        * intros j Hj E. rewrite blk_div, blk_mod by lia. rewrite Nat.eqb_refl. apply Nat.eqb_neq in E. rewrite E. ring.
    - lia.
    - lia.
    - lia.
    - intros kk Hkk E1 E2. apply rsum_zero. intros j Hj. rewrite blk_div by lia.
      destruct (Nat.eqb_spec kk (S k)); [lia|]. destruct (Nat.eqb_spec (S kk) (S k)); [lia|]. ring.
  Qed.
  (* columns of G *)
  Lemma GT_gen l k r : (k < N + 1)%nat -> (r < w)%nat ->
    ttimes (n_l P) (cG P) l (k * w + r) =
    (if (r <? nx)%nat then - ls l k r else 0) +
    (if (k <? N)%nat then rsum nx (fun i => stageAB o k i r * ls l (S k) i) else 0).
  Proof.
    intros Hk Hr. unfold ttimes. cbn [n_l cG ocp_qp]. rewrite rsum_blocks.
    assert (T1 : rsum nx (fun j => (if (((k * w + r) / w) =? ((k * nx + j) / nx))%nat
        then if (((k * w + r) mod w) =? ((k * nx + j) mod nx))%nat then -1 else 0
        else if (S ((k * w + r) / w) =? ((k * nx + j) / nx))%nat
             then stageAB o ((k * w + r) / w) ((k * nx + j) mod nx) ((k * w + r) mod w) else 0) * l (k * nx + j)%nat) =
        if (r <? nx)%nat then - ls l k r else 0).
    { destruct (Nat.ltb_spec r nx).
      - rewrite (rsum_single nx r).
        + rewrite !blk_div, !blk_mod, !Nat.eqb_refl by lia. unfold ls. ring.
        + lia.
        + intros j Hj E. rewrite !blk_div, !blk_mod, Nat.eqb_refl by lia.
          destruct (Nat.eqb_spec r j); [lia|ring].
      - apply rsum_zero. intros j Hj. rewrite !blk_div, !blk_mod, Nat.eqb_refl by lia.
        destruct (Nat.eqb_spec r j); [lia|ring]. }
    destruct (Nat.ltb_spec k N) as [HN|HN].
    - rewrite (rsum_two (N + 1) k (S k)).
      + rewrite T1. f_equal. apply rsum_ext. intros j Hj. rewrite !blk_div, !blk_mod by lia.
        destruct (Nat.eqb_spec k (S k)); [lia|]. rewrite Nat.eqb_refl. reflexivity.
      + lia.
      + lia.
      + lia.
      + intros kk Hkk E1 E2. apply rsum_zero. intros j Hj. rewrite !blk_div by lia.
        destruct (Nat.eqb_spec k kk); [lia|]. destruct (Nat.eqb_spec (S k) kk); [lia|]. ring.
    - rewrite (rsum_single (N + 1) k).
      + rewrite T1. ring.
      + exact Hk.
      + intros kk Hkk E1. apply rsum_zero. intros j Hj. rewrite !blk_div by lia.
        destruct (Nat.eqb_spec k kk); [lia|]. destruct (Nat.eqb_spec (S k) kk); [lia|]. ring.
  Qed.
  Lemma GT_x l k i : (k < N)%nat -> (i < nx)%nat ->
    ttimes (n_l P) (cG P) l (k * w + i) = - ls l k i + ttimes nx (oA o k) (ls l (S k)) i.
  Proof.
    intros Hk Hi. rewrite GT_gen by lia. rewrite ltb_x by exact Hi.
    replace (k <? N)%nat with true by (symmetry; apply Nat.ltb_lt; exact Hk). f_equal.
    apply rsum_ext. intros. unfold stageAB. rewrite ltb_x by exact Hi. reflexivity.
  Qed.
  Lemma GT_u l k i : (k < N)%nat -> (i < nu)%nat ->
    ttimes (n_l P) (cG P) l (k * w + nx + i) = ttimes nx (oB o k) (ls l (S k)) i.
  Proof.
    intros Hk Hi. replace (k * w + nx + i)%nat with (k * w + (nx + i))%nat by lia.
    rewrite GT_gen by lia. rewrite ltb_u.
    replace (k <? N)%nat with true by (symmetry; apply Nat.ltb_lt; exact Hk). rewrite Rplus_0_l.
    apply rsum_ext. intros. unfold stageAB. rewrite ltb_u, sub_u. reflexivity.
  Qed.
  Lemma GT_N_x l i : (i < nx)%nat -> ttimes (n_l P) (cG P) l (N * w + i) = - ls l N i.
  Proof.
    intros Hi. rewrite GT_gen by lia. rewrite ltb_x by exact Hi.
    replace (N <? N)%nat with false by (symmetry; apply Nat.ltb_ge; lia). ring.
  Qed.
  Lemma GT_N_u l i : (i < nu)%nat -> ttimes (n_l P) (cG P) l (N * w + nx + i) = 0.
  Proof.
    intros Hi. replace (N * w + nx + i)%nat with (N * w + (nx + i))%nat by lia. rewrite GT_gen by lia.
    rewrite ltb_u. replace (N <? N)%nat with false by (symmetry; apply Nat.ltb_ge; lia). ring.
  Qed.
  (* f, h, b *)
  Lemma f_x k i : (i < nx)%nat -> cf P (k * w + i) = cq o k i.
  Proof. intro Hi. cbn [cf ch cb ocp_qp]. rewrite blk_div, blk_mod, ltb_x by lia. reflexivity. Qed.
  Lemma f_u k i : (i < nu)%nat -> cf P (k * w + nx + i) = cr o k i.
  Proof.
    intro Hi. cbn [cf ch cb ocp_qp]. replace (k * w + nx + i)%nat with (k * w + (nx + i))%nat by lia.
    rewrite blk_div, blk_mod, ltb_u, sub_u by lia. reflexivity.
  Qed.
  Lemma h_0 i : (i < nx)%nat -> ch P i = - ox0 o i.
  Proof. intro Hi. cbn [cf ch cb ocp_qp]. rewrite Nat.div_small, Nat.mod_small by exact Hi. reflexivity. Qed.
  Lemma h_S k i : (i < nx)%nat -> ch P (S k * nx + i) = - oc o k i.
  Proof. intro Hi. unfold ch, ocp_qp. rewrite blk_div, blk_mod by exact Hi. reflexivity. Qed.
  Lemma b_row k i : (i < nc)%nat -> cb P (k * nc + i) = - od o k i.
  Proof. intro Hi. cbn [cf ch cb ocp_qp]. rewrite blk_div, blk_mod by exact Hi. reflexivity. Qed.

  (* a property of all flat indices from the state and control parts *)
  Lemma flat_xu (Pr : nat -> Prop) :
    (forall k i, (k < N + 1)%nat -> (i < nx)%nat -> Pr (k * w + i)%nat) ->
    (forall k i, (k < N + 1)%nat -> (i < nu)%nat -> Pr (k * w + nx + i)%nat) ->
    forall p, (p < (N + 1) * w)%nat -> Pr p.
  Proof.
    intros H1 H2. apply flat. intros k r Hk Hr. destruct (Nat.lt_ge_cases r nx) as [L|L]; [auto|].
    replace (k * w + r)%nat with (k * w + nx + (r - nx))%nat by lia. apply H2; lia.
  Qed.
End Facts.
