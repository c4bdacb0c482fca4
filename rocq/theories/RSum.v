(* Finite sums of reals and their relation to the vectors of the model. *)
From Verif Require Export Vec.
From Coq Require Export Reals Lra Psatz.
Local Open Scope R_scope.

(* sum of f 0 .. f (n-1) *)
Fixpoint rsum (n : nat) (f : nat -> R) : R :=
  match n with O => 0 | S k => rsum k f + f k end.

Lemma rsum_ext n f g : (forall i, (i < n)%nat -> f i = g i) -> rsum n f = rsum n g.
Proof.
  induction n as [|n IH]; cbn; intro H; [reflexivity|].
  rewrite IH by (intros; apply H; lia). rewrite H by lia. reflexivity.
Qed.
Lemma rsum_zero n f : (forall i, (i < n)%nat -> f i = 0) -> rsum n f = 0.
Proof.
  induction n as [|n IH]; cbn; intro H; [reflexivity|].
  rewrite IH by (intros; apply H; lia). rewrite H by lia. lra.
Qed.
Lemma rsum_add n f g : rsum n (fun i => f i + g i) = rsum n f + rsum n g.
Proof. induction n as [|n IH]; cbn; [lra|]. rewrite IH. lra. Qed.
Lemma rsum_sub n f g : rsum n (fun i => f i - g i) = rsum n f - rsum n g.
Proof. induction n as [|n IH]; cbn; [lra|]. rewrite IH. lra. Qed.
Lemma rsum_opp n f : rsum n (fun i => - f i) = - rsum n f.
Proof. induction n as [|n IH]; cbn; [lra|]. rewrite IH. lra. Qed.
Lemma rsum_scal n c f : rsum n (fun i => c * f i) = c * rsum n f.
Proof. induction n as [|n IH]; cbn; [lra|]. rewrite IH. lra. Qed.
Lemma rsum_scal_r n c f : rsum n (fun i => f i * c) = rsum n f * c.
Proof. induction n as [|n IH]; cbn; [lra|]. rewrite IH. lra. Qed.
Lemma rsum_swap n m f :
  rsum n (fun i => rsum m (fun j => f i j)) = rsum m (fun j => rsum n (fun i => f i j)).
Proof.
  induction n as [|n IH]; cbn; [symmetry; apply rsum_zero; reflexivity|].
  rewrite IH, <- rsum_add. reflexivity.
Qed.
Lemma rsum_split n m f : rsum (n + m) f = rsum n f + rsum m (fun i => f (n + i)%nat).
Proof.
  induction m as [|m IH]; cbn; [rewrite Nat.add_0_r; lra|].
  rewrite Nat.add_succ_r. cbn. rewrite IH. lra.
Qed.
(* N blocks of length w *)
Lemma rsum_blocks N w f :
  rsum (N * w) f = rsum N (fun i => rsum w (fun j => f (i * w + j)%nat)).
Proof.
  induction N as [|N IH]; cbn [rsum Nat.mul]; [reflexivity|].
  rewrite Nat.add_comm, rsum_split, IH. reflexivity.
Qed.
Lemma rsum_first n f : rsum (S n) f = f 0%nat + rsum n (fun i => f (S i)).
Proof. induction n as [|n IH]; cbn in *; [lra|]. rewrite IH. lra. Qed.
Lemma rsum_single n k f :
  (k < n)%nat -> (forall i, (i < n)%nat -> i <> k -> f i = 0) -> rsum n f = f k.
Proof.
  intros Hk H. induction n as [|n IH]; [lia|]. cbn.
  destruct (Nat.eq_dec k n) as [->|E].
  - rewrite rsum_zero; [lra|]. intros i Hi. apply H; lia.
  - rewrite IH; [|lia|intros; apply H; lia]. rewrite (H n) by lia. lra.
Qed.
Lemma rsum_if_eq n k f : (k < n)%nat -> rsum n (fun i => if Nat.eqb i k then f i else 0) = f k.
Proof.
  intro H. rewrite (rsum_single n k _ H); [rewrite Nat.eqb_refl; reflexivity|].
  intros i _ E. apply Nat.eqb_neq in E. rewrite E. reflexivity.
Qed.
Lemma rsum_le n f g : (forall i, (i < n)%nat -> f i <= g i) -> rsum n f <= rsum n g.
Proof.
  induction n as [|n IH]; cbn; intro H; [lra|].
  apply Rplus_le_compat; [apply IH; intros; apply H; lia|apply H; lia].
Qed.
Lemma rsum_nonneg n f : (forall i, (i < n)%nat -> 0 <= f i) -> 0 <= rsum n f.
Proof.
  intro H. rewrite <- (rsum_zero n (fun _ => 0)) by reflexivity. apply rsum_le. exact H.
Qed.
Lemma rsum_term_le n f k : (k < n)%nat -> (forall i, (i < n)%nat -> 0 <= f i) -> f k <= rsum n f.
Proof.
  induction n as [|n IH]; cbn; intros Hk H; [lia|].
  assert (0 <= rsum n f) by (apply rsum_nonneg; intros; apply H; lia).
  assert (0 <= f n) by (apply H; lia).
  destruct (Nat.eq_dec k n) as [->|E]; [lra|].
  assert (f k <= rsum n f) by (apply IH; [lia|intros; apply H; lia]). lra.
Qed.
Lemma rsum_sq_zero n f : rsum n (fun i => f i * f i) = 0 -> forall i, (i < n)%nat -> f i = 0.
Proof.
  intros H i Hi.
  assert (K := rsum_term_le n (fun i => f i * f i) i Hi (fun j _ => Rle_0_sqr (f j))).
  cbn in K. rewrite H in K. assert (f i * f i = 0) by nra. nra.
Qed.
Lemma rsum_abs n f : Rabs (rsum n f) <= rsum n (fun i => Rabs (f i)).
Proof.
  induction n as [|n IH]; cbn; [rewrite Rabs_R0; lra|].
  eapply Rle_trans; [apply Rabs_triang|]. lra.
Qed.
Lemma rsum_const n c : rsum n (fun _ => c) = INR n * c.
Proof. induction n as [|n IH]; cbn [rsum]; [cbn; lra|]. rewrite IH, S_INR. lra. Qed.

(* ---------- dot products and norms of the model over R ---------- *)
Notation rg := (vget Rops).
Notation rm := (mget Rops).

Lemma Rdot_rsum (u v : vec R) : length u = length v ->
  Rdot u v = rsum (length u) (fun i => rg u i * rg v i).
Proof.
  revert v. induction u as [|x u IH]; intros [|y v] H; try discriminate; [reflexivity|].
  cbn [Rdot length]. rewrite rsum_first. rewrite (IH v) by (cbn in H; lia). reflexivity.
Qed.
Lemma rdot_tab n f g : Rdot (tab n f) (tab n g) = rsum n (fun i => f i * g i).
Proof.
  rewrite Rdot_rsum by (rewrite !tab_length; reflexivity). rewrite tab_length.
  apply rsum_ext. intros i Hi. rewrite !(vget_tab Rops) by exact Hi. reflexivity.
Qed.
Lemma sqnorm_rsum (u : vec R) : vsqnorm Rops u = rsum (length u) (fun i => rg u i * rg u i).
Proof. apply Rdot_rsum. reflexivity. Qed.
Lemma sqnorm_nonneg (u : vec R) : 0 <= vsqnorm Rops u.
Proof. rewrite sqnorm_rsum. apply rsum_nonneg. intros. apply Rle_0_sqr. Qed.
Lemma norm_sq (u : vec R) : vnorm Rops u * vnorm Rops u = rsum (length u) (fun i => rg u i * rg u i).
Proof. unfold vnorm. cbn [o_sqrt Rops]. rewrite sqrt_sqrt by apply sqnorm_nonneg. apply sqnorm_rsum. Qed.
Lemma norm_nonneg (u : vec R) : 0 <= vnorm Rops u.
Proof. apply sqrt_pos. Qed.

Lemma mv_entry (M : mat R) x i : (i < mr M)%nat -> length x = mc M ->
  rg (mv Rops M x) i = rsum (mc M) (fun j => rm M i j * rg x j).
Proof.
  intros Hi Hx. unfold mv. rewrite (vget_tab Rops) by exact Hi.
  cbn [o_dot Rops]. rewrite Rdot_rsum by (rewrite (mrow_len Rops); auto).
  rewrite (mrow_len Rops). apply rsum_ext. intros j Hj. unfold mrow. rewrite (vget_tab Rops) by exact Hj. reflexivity.
Qed.
Lemma mtv_entry (M : mat R) x j : (j < mc M)%nat -> length x = mr M ->
  rg (mtv Rops M x) j = rsum (mr M) (fun i => rm M i j * rg x i).
Proof.
  intros Hi Hx. unfold mtv. rewrite (vget_tab Rops) by exact Hi.
  cbn [o_dot Rops]. rewrite Rdot_rsum by (rewrite (mcol_len Rops); auto).
  rewrite (mcol_len Rops). apply rsum_ext. intros i Hi'. unfold mcol. rewrite (vget_tab Rops) by exact Hi'. reflexivity.
Qed.
Lemma mm_entry (M N : mat R) i j : (i < mr M)%nat -> (j < mc N)%nat -> mc M = mr N ->
  rm (mm Rops M N) i j = rsum (mc M) (fun k => rm M i k * rm N k j).
Proof.
  intros Hi Hj E. unfold mm. rewrite (mget_mtab Rops) by assumption.
  cbn [o_dot Rops]. rewrite Rdot_rsum by (rewrite (mrow_len Rops), (mcol_len Rops); auto).
  rewrite (mrow_len Rops). apply rsum_ext. intros k Hk. unfold mrow, mcol.
  rewrite !(vget_tab Rops) by lia. reflexivity.
Qed.

(* infinity norm and maximal coefficient *)
Lemma Rmaxc_ge (v : vec R) i : (i < length v)%nat -> rg v i <= Rmaxc v.
Proof.
  revert i. induction v as [|x v IH]; intros i Hi; [cbn in Hi; lia|].
  destruct v as [|y v]; [destruct i; cbn in *; [lra|lia]|].
  change (Rmaxc (x :: y :: v)) with (Rmax x (Rmaxc (y :: v))).
  destruct i as [|i]; [apply Rmax_l|].
  eapply Rle_trans; [|apply Rmax_r]. apply (IH i). cbn in *; lia.
Qed.
Lemma Rmaxc_in (v : vec R) : (0 < length v)%nat -> exists i, (i < length v)%nat /\ Rmaxc v = rg v i.
Proof.
  induction v as [|x v IH]; intro H; [cbn in H; lia|].
  destruct v as [|y v]; [exists 0%nat; split; [cbn; lia|reflexivity]|].
  change (Rmaxc (x :: y :: v)) with (Rmax x (Rmaxc (y :: v))).
  destruct IH as (i & Hi & E); [cbn; lia|].
  unfold Rmax. destruct (Rle_dec x (Rmaxc (y :: v))).
  - exists (S i). split; [cbn in *; lia|exact E].
  - exists 0%nat. split; [cbn; lia|reflexivity].
Qed.
Lemma Rmaxc_le (v : vec R) c : (0 < length v)%nat -> (Rmaxc v <= c <-> forall i, (i < length v)%nat -> rg v i <= c).
Proof.
  intro H. split.
  - intros L i Hi. eapply Rle_trans; [apply Rmaxc_ge; exact Hi|exact L].
  - intro A. destruct (Rmaxc_in v H) as (i & Hi & ->). auto.
Qed.
Lemma vinf_ge (v : vec R) i : (i < length v)%nat -> Rabs (rg v i) <= vinf Rops v.
Proof.
  intro Hi. unfold vinf. destruct v as [|x v]; [cbn in Hi; lia|].
  assert (K := Rmaxc_ge (map Rabs (x :: v)) i). rewrite map_length in K. specialize (K Hi).
  cbn [o_maxc o_abs Rops]. unfold vget at 1 in K.
  change (o_zero Rops) with 0 in K.
  rewrite (nth_indep _ 0 (Rabs 0)) in K by (rewrite map_length; exact Hi).
  rewrite map_nth in K. exact K.
Qed.
Lemma vinf_nonneg (v : vec R) : 0 <= vinf Rops v.
Proof.
  destruct v as [|x v]; [cbn; lra|].
  eapply Rle_trans; [apply Rabs_pos|apply (vinf_ge (x :: v) 0); cbn; lia].
Qed.
Lemma vinf_le (v : vec R) c : 0 <= c -> (vinf Rops v <= c <-> forall i, (i < length v)%nat -> Rabs (rg v i) <= c).
Proof.
  intro Hc. split.
  - intros L i Hi. eapply Rle_trans; [apply vinf_ge; exact Hi|exact L].
  - intro A. unfold vinf. destruct v as [|x v]; [exact Hc|]. cbn [o_maxc o_abs Rops].
    apply Rmaxc_le; [cbn; lia|]. intros i Hi. rewrite map_length in Hi.
    unfold vget. change (o_zero Rops) with 0. rewrite (nth_indep _ 0 (Rabs 0)) by (rewrite map_length; exact Hi).
    rewrite map_nth. apply (A i Hi).
Qed.
(* Hoelder: |<u,v>| <= max|u_i| * sum |v_i| *)
Lemma dot_inf_one n u v c : (forall i, (i < n)%nat -> Rabs (u i) <= c) ->
  Rabs (rsum n (fun i => u i * v i)) <= c * rsum n (fun i => Rabs (v i)).
Proof.
  intro H. eapply Rle_trans; [apply rsum_abs|]. rewrite <- rsum_scal. apply rsum_le. intros i Hi.
  rewrite Rabs_mult. apply Rmult_le_compat_r; [apply Rabs_pos|auto].
Qed.

(* quadratic forms *)
Lemma quad_expand n (H : nat -> nat -> R) (x y : nat -> R) (t : R) :
  (forall i j, (i < n)%nat -> (j < n)%nat -> H i j = H j i) ->
  rsum n (fun i => rsum n (fun j => (x i + t * y i) * H i j * (x j + t * y j))) =
  rsum n (fun i => rsum n (fun j => x i * H i j * x j)) +
  2 * t * rsum n (fun i => y i * rsum n (fun j => H i j * x j)) +
  t * t * rsum n (fun i => rsum n (fun j => y i * H i j * y j)).
Proof.
  intro Hs.
  assert (E : rsum n (fun i => rsum n (fun j => x i * H i j * y j)) =
              rsum n (fun i => y i * rsum n (fun j => H i j * x j))).
  { rewrite rsum_swap. apply rsum_ext. intros i Hi. rewrite <- rsum_scal. apply rsum_ext. intros j Hj.
    rewrite (Hs j i) by assumption. ring. }
  rewrite (rsum_ext n _ (fun i => rsum n (fun j => x i * H i j * x j) +
     (t * rsum n (fun j => x i * H i j * y j) + (t * (y i * rsum n (fun j => H i j * x j)) +
      t * t * rsum n (fun j => y i * H i j * y j))))).
  2:{ intros i Hi. rewrite <- !rsum_scal, <- !rsum_add. apply rsum_ext. intros j Hj. ring. }
  rewrite !rsum_add, !rsum_scal, E. ring.
Qed.
