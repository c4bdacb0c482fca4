(* The textbook factorisations satisfy the laws. *)
From Verif Require Export LALaws LinAlgInst.
Local Open Scope R_scope.

Lemma rg_app1 (u v : vec R) i : (i < length u)%nat -> rg (u ++ v) i = rg u i.
Proof. intro H. unfold vget. apply app_nth1. exact H. Qed.
Lemma rg_app2 (u v : vec R) i : (length u <= i)%nat -> rg (u ++ v) i = rg v (i - length u).
Proof. intro H. unfold vget. apply app_nth2. exact H. Qed.
Lemma rg_firstn (u : vec R) n i : (i < n)%nat -> rg (firstn n u) i = rg u i.
Proof.
  unfold vget. revert n i. induction u as [|x u IH]; intros [|n] [|i] H; cbn; try lia; try reflexivity.
  apply IH. lia.
Qed.

Lemma dot_firstn (r x : vec R) i : length x = i -> (i <= length r)%nat ->
  Rdot (firstn i r) x = rsum i (fun j => rg r j * rg x j).
Proof.
  intros Hx Hr. rewrite Rdot_rsum by (rewrite firstn_length_le by exact Hr; auto).
  rewrite firstn_length_le by exact Hr. apply rsum_ext. intros j Hj. rewrite rg_firstn by exact Hj. reflexivity.
Qed.

(* forward substitution *)
Lemma fsub_spec : forall (rows : list (vec R)) (b x : vec R),
  (forall k, (k < length rows)%nat -> (length x + k < length (nth k rows []))%nat /\
             rg (nth k rows []) (length x + k) <> 0) ->
  length (fsub Rops rows b x) = (length x + length rows)%nat /\
  (forall i, (i < length x)%nat -> rg (fsub Rops rows b x) i = rg x i) /\
  (forall k, (k < length rows)%nat ->
     rsum (S (length x + k)) (fun j => rg (nth k rows []) j * rg (fsub Rops rows b x) j) = rg b (length x + k)).
Proof.
  induction rows as [|r rows IH]; intros b x H.
  - cbn. rewrite Nat.add_0_r. repeat split; auto. intros k Hk. lia.
  - cbn [fsub]. set (e := o_div Rops _ _). specialize (IH b (x ++ [e])).
    rewrite app_length in IH. cbn [length] in IH.
    destruct IH as (I1 & I2 & I3).
    { intros k Hk. destruct (H (S k)) as [H1 H2]; [cbn; lia|]. cbn [nth] in *.
      replace (length x + 1 + k)%nat with (length x + S k)%nat by lia. split; assumption. }
    set (out := fsub Rops rows b (x ++ [e])) in *.
    split; [rewrite I1; cbn; lia|]. split.
    + intros i Hi. rewrite I2 by lia. apply rg_app1. exact Hi.
    + intros k Hk. destruct k as [|k].
      * rewrite Nat.add_0_r. cbn [nth rsum]. destruct (H 0%nat) as [H1 H2]; [cbn; lia|].
        rewrite Nat.add_0_r in H1, H2. cbn [nth] in H1, H2.
        rewrite I2 by lia. rewrite rg_app2, Nat.sub_diag by lia. cbn [vget nth].
        unfold e. cbn [o_div o_sub o_dot Rops]. rewrite dot_firstn by lia.
        rewrite (rsum_ext (length x) _ (fun j => rg r j * rg x j)).
        2:{ intros j Hj. rewrite I2 by lia. rewrite rg_app1 by exact Hj. reflexivity. }
        set (s := rsum _ _). field. exact H2.
      * cbn [nth]. replace (length x + S k)%nat with (length x + 1 + k)%nat by lia. apply I3.
        cbn in Hk. lia.
Qed.

(* back substitution *)
Lemma bsub_spec : forall n L b x,
  (forall k, (k < n)%nat -> L k k <> 0) ->
  length (bsub Rops L b n x) = (n + length x)%nat /\
  (forall i, (i < length x)%nat -> rg (bsub Rops L b n x) (n + i) = rg x i) /\
  (forall k, (k < n)%nat ->
     rsum (n + length x) (fun j => if Nat.leb k j then L j k * rg (bsub Rops L b n x) j else 0) = rg b k).
Proof.
  induction n as [|n IH]; intros L b x H.
  - cbn [bsub Nat.add]. repeat split; auto. intros k Hk. lia.
  - cbn [bsub]. set (e := o_div Rops _ _). destruct (IH L b (e :: x)) as (I1 & I2 & I3).
    { intros k Hk. apply H. lia. }
    set (out := bsub Rops L b n (e :: x)) in *. cbn [length] in *.
    split; [rewrite I1; lia|]. split.
    + intros i Hi. replace (S n + i)%nat with (n + S i)%nat by lia. rewrite I2 by lia. reflexivity.
    + intros k Hk. replace (S n + length x)%nat with (n + S (length x))%nat by lia.
      destruct (Nat.eq_dec k n) as [->|E]; [|apply I3; lia].
      rewrite rsum_split. rewrite rsum_zero.
      2:{ intros i Hi. destruct (Nat.leb_spec n i); [lia|reflexivity]. }
      rewrite rsum_first. rewrite Nat.add_0_r, Nat.leb_refl.
      assert (X0 := I2 0%nat). rewrite Nat.add_0_r in X0. rewrite X0 by lia. cbn [vget nth].
      rewrite (rsum_ext (length x) _ (fun i => L (S n + i)%nat n * rg x i)).
      2:{ intros i Hi. replace (n + S i)%nat with (S n + i)%nat by lia.
          destruct (Nat.leb_spec n (S n + i)); [|lia]. replace (S n + i)%nat with (n + S i)%nat by lia.
          rewrite I2 by lia. reflexivity. }
      unfold e. cbn [o_div o_sub o_dot Rops].
      rewrite Rdot_rsum by apply tab_length. rewrite tab_length.
      rewrite (rsum_ext (length x) (fun i => rg (tab _ _) i * rg x i) (fun i => L (S n + i)%nat n * rg x i)).
      2:{ intros i Hi. rewrite (vget_tab Rops) by exact Hi. reflexivity. }
      specialize (H n ltac:(lia)). change (nth n b (o_zero Rops)) with (rg b n).
      set (s := rsum _ _). field. exact H.
Qed.

Lemma rg_over (u : vec R) i : (length u <= i)%nat -> rg u i = 0.
Proof. intro H. unfold vget. apply nth_overflow. exact H. Qed.

(* K = L D L', L c = (row i of K), L' y = l with D l = c:  then K y = (row i) and the pivot is
   K(i,i) minus the row times y *)
Lemma schur i (K L : nat -> nat -> R) (d c l y : nat -> R) (k : nat -> R) :
  (forall r j, (r < i)%nat -> (j < i)%nat -> K r j = rsum i (fun t => L r t * d t * L j t)) ->
  (forall r, (r < i)%nat -> rsum i (fun t => L r t * c t) = k r) ->
  (forall t, (t < i)%nat -> rsum i (fun j => L j t * y j) = l t) ->
  (forall t, (t < i)%nat -> d t * l t = c t) ->
  (forall r, (r < i)%nat -> rsum i (fun j => K r j * y j) = k r) /\
  rsum i (fun j => k j * y j) = rsum i (fun t => c t * l t).
Proof.
  intros HK Hc Hy Hd. split.
  - intros r Hr. rewrite <- Hc by exact Hr.
    rewrite (rsum_ext i (fun j => K r j * y j) (fun j => rsum i (fun t => L r t * d t * L j t * y j))).
    2:{ intros j Hj. rewrite HK by assumption. rewrite <- rsum_scal_r. reflexivity. }
    rewrite rsum_swap. apply rsum_ext. intros t Ht.
    rewrite <- Hd, <- Hy by exact Ht. rewrite <- !rsum_scal. apply rsum_ext. intros; ring.
  - rewrite (rsum_ext i (fun j => k j * y j) (fun j => rsum i (fun t => L j t * c t * y j))).
    2:{ intros j Hj. rewrite <- Hc by assumption. rewrite <- rsum_scal_r. reflexivity. }
    rewrite rsum_swap. apply rsum_ext. intros t Ht.
    rewrite <- Hy by exact Ht. rewrite <- !rsum_scal. apply rsum_ext. intros; ring.
Qed.

(* a sum over a prefix *)
Lemma rsum_prefix n m f : (n <= m)%nat -> (forall i, (n <= i)%nat -> (i < m)%nat -> f i = 0) -> rsum m f = rsum n f.
Proof.
  intros H Z. replace m with (n + (m - n))%nat by lia. rewrite rsum_split.
  rewrite (rsum_zero (m - n)); [ring|]. intros i Hi. apply Z; lia.
Qed.

Definition Lof (rows : list (vec R)) (k j : nat) : R := rg (nth k rows []) j.

Definition low_rows (i : nat) (rows : list (vec R)) : Prop :=
  length rows = i /\ forall k, (k < i)%nat -> length (nth k rows []) = S k /\ Lof rows k k <> 0.
Lemma Lof_upper i rows k j : low_rows i rows -> (k < i)%nat -> (k < j)%nat -> Lof rows k j = 0.
Proof. intros [_ H] Hk Hj. apply rg_over. destruct (H k Hk) as [-> _]. lia. Qed.

Lemma low_fsub i rows b : low_rows i rows ->
  length (fsub Rops rows b []) = i /\
  forall r, (r < i)%nat -> rsum i (fun t => Lof rows r t * rg (fsub Rops rows b []) t) = rg b r.
Proof.
  intros LR. assert (LR' := LR). destruct LR' as [Hl H].
  destruct (fsub_spec rows b []) as (F1 & _ & F3).
  { intros k Hk. cbn [length Nat.add]. assert (Hk' : (k < i)%nat) by (rewrite <- Hl; exact Hk). destruct (H k Hk') as [H1 H2]. rewrite H1. split; [lia|exact H2]. }
  cbn [length Nat.add] in F1, F3. split; [rewrite <- Hl; exact F1|]. intros r Hr.
  assert (Hr' : (r < length rows)%nat) by (rewrite Hl; exact Hr). rewrite <- (F3 r Hr'). apply rsum_prefix; [lia|]. intros t H1 H2.
  assert (Z := Lof_upper i rows r t LR Hr ltac:(lia)). unfold Lof in Z. rewrite Z. ring.
Qed.
Lemma low_bsub i rows b : low_rows i rows ->
  length (bsub Rops (Lof rows) b i []) = i /\
  forall t, (t < i)%nat -> rsum i (fun j => Lof rows j t * rg (bsub Rops (Lof rows) b i []) j) = rg b t.
Proof.
  intros LR. assert (LR' := LR). destruct LR' as [Hl H].
  destruct (bsub_spec i (Lof rows) b []) as (F1 & _ & F3).
  { intros k Hk. apply H. exact Hk. }
  cbn [length] in F1, F3. rewrite Nat.add_0_r in F1, F3. split; [exact F1|]. intros t Ht.
  rewrite <- (F3 t Ht). apply rsum_ext. intros j Hj. destruct (Nat.leb_spec t j); [reflexivity|].
  rewrite (Lof_upper i) by assumption. ring.
Qed.

Lemma low_snoc i rows l p : low_rows i rows -> length l = i -> p <> 0 -> low_rows (S i) (rows ++ [l ++ [p]]).
Proof.
  intros [Hl H] Ll Hp. split; [rewrite app_length, Hl; cbn; lia|]. intros k Hk. unfold Lof.
  destruct (Nat.eq_dec k i) as [->|E].
  - rewrite app_nth2 by (rewrite Hl; apply le_n). rewrite Hl, Nat.sub_diag. cbn [nth]. rewrite app_length, Ll. cbn.
    split; [lia|]. rewrite rg_app2 by (rewrite Ll; apply le_n). rewrite Ll, Nat.sub_diag. exact Hp.
  - rewrite app_nth1 by (rewrite Hl; lia). apply H. lia.
Qed.
Lemma Lof_snoc_old rows r k j : (k < length rows)%nat -> Lof (rows ++ [r]) k j = Lof rows k j.
Proof. intro H. unfold Lof. rewrite app_nth1 by exact H. reflexivity. Qed.
Lemma Lof_snoc_new rows l p j : (j < length l)%nat -> Lof (rows ++ [l ++ [p]]) (length rows) j = rg l j.
Proof. intro H. unfold Lof. rewrite app_nth2, Nat.sub_diag by lia. cbn [nth]. apply rg_app1. exact H. Qed.
Lemma Lof_snoc_diag rows l p : Lof (rows ++ [l ++ [p]]) (length rows) (length l) = p.
Proof. unfold Lof. rewrite app_nth2, Nat.sub_diag by lia. cbn [nth]. rewrite rg_app2, Nat.sub_diag by lia. reflexivity. Qed.

(* ---------- Cholesky ---------- *)
Definition chol_inv (K : nat -> nat -> R) (i : nat) (rows : list (vec R)) : Prop :=
  low_rows i rows /\ (forall k, (k < i)%nat -> 0 < Lof rows k k) /\
  forall k j, (j <= k)%nat -> (k < i)%nat -> rsum (S j) (fun t => Lof rows k t * Lof rows j t) = K k j.

Lemma chol_step K i rows : chol_inv K i rows ->
  let l := fsub Rops rows (tab i (fun j => K i j)) [] in
  let p := K i i - Rdot l l in
  length l = i /\ Rdot l l = rsum i (fun t => rg l t * rg l t) /\
  (forall r, (r < i)%nat -> rsum i (fun t => Lof rows r t * rg l t) = K i r) /\
  (0 < p -> chol_inv K (S i) (rows ++ [l ++ [sqrt p]])).
Proof.
  intros (LR & PD & HK) l p.
  destruct (low_fsub i rows (tab i (fun j => K i j)) LR) as [L1 L2]. fold l in L1, L2.
  assert (E2 : forall r, (r < i)%nat -> rsum i (fun t => Lof rows r t * rg l t) = K i r).
  { intros r Hr. rewrite L2 by exact Hr. apply (vget_tab Rops). exact Hr. }
  assert (E1 : Rdot l l = rsum i (fun t => rg l t * rg l t)) by (rewrite Rdot_rsum by reflexivity; rewrite L1; reflexivity).
  split; [exact L1|]. split; [exact E1|]. split; [exact E2|]. intro Hp.
  assert (Hs : 0 < sqrt p) by (apply sqrt_lt_R0; exact Hp).
  assert (Hl := proj1 LR).
  split; [apply low_snoc; [exact LR|exact L1|lra]|]. split.
  - intros k Hk. destruct (Nat.eq_dec k i) as [->|E].
    + rewrite <- Hl at 1. replace i with (length l) by exact L1. rewrite Lof_snoc_diag. exact Hs.
    + rewrite Lof_snoc_old by lia. apply PD. lia.
  - intros k j Hj Hk. destruct (Nat.eq_dec k i) as [->|E].
    + destruct (Nat.eq_dec j i) as [->|E'].
      * cbn [rsum].
        assert (D : Lof (rows ++ [l ++ [sqrt p]]) i i = sqrt p).
        { rewrite <- Hl at 1. replace i with (length l) by exact L1. apply Lof_snoc_diag. }
        rewrite D. rewrite sqrt_sqrt by lra.
        rewrite (rsum_ext i _ (fun t => rg l t * rg l t)).
        2:{ intros t Ht. assert (N : Lof (rows ++ [l ++ [sqrt p]]) i t = rg l t).
            { rewrite <- Hl. apply Lof_snoc_new. lia. } rewrite N. reflexivity. }
        unfold p. rewrite E1. ring.
      * rewrite (rsum_ext (S j) _ (fun t => Lof rows j t * rg l t)).
        2:{ intros t Ht. rewrite (Lof_snoc_old rows _ j) by lia.
            assert (N : Lof (rows ++ [l ++ [sqrt p]]) i t = rg l t).
            { rewrite <- Hl. apply Lof_snoc_new. lia. } rewrite N. ring. }
        rewrite <- (E2 j) by lia. symmetry. apply rsum_prefix; [lia|]. intros t T1 T2.
        rewrite (Lof_upper i) by (try assumption; lia). ring.
    + rewrite (rsum_ext (S j) _ (fun t => Lof rows k t * Lof rows j t)).
      2:{ intros t Ht. rewrite !Lof_snoc_old by lia. reflexivity. }
      apply HK; lia.
Qed.

Lemma chol_full K i rows : symmetric i K -> chol_inv K i rows ->
  forall r j, (r < i)%nat -> (j < i)%nat -> K r j = rsum i (fun t => Lof rows r t * 1 * Lof rows j t).
Proof.
  intros Sy (LR & _ & HK).
  assert (G : forall r j, (r < i)%nat -> (j <= r)%nat -> K r j = rsum i (fun t => Lof rows r t * 1 * Lof rows j t)).
  { intros r j Hr Hj. rewrite <- HK by assumption. rewrite (rsum_prefix (S j) i).
    - apply rsum_ext; intros; ring.
    - lia.
    - intros t T1 T2. rewrite (Lof_upper i rows j) by (try assumption; lia). ring. }
  intros r j Hr Hj. destruct (Nat.le_gt_cases j r) as [C|C]; [apply G; assumption|].
  rewrite Sy by assumption. rewrite G by lia. apply rsum_ext; intros; ring.
Qed.

Lemma chol_rows_sound : forall n K i rows out, chol_inv K i rows ->
  chol_rows Rops K n i rows = Some out -> chol_inv K (i + n) out.
Proof.
  induction n as [|n IH]; intros K i rows out CI; cbn [chol_rows].
  - intros [= <-]. rewrite Nat.add_0_r. exact CI.
  - destruct (chol_step K i rows CI) as (S1 & S2 & S3 & S4).
    cbn [o_ltb o_zero o_sub o_dot o_sqrt Rops] in *. destruct (Rltb 0 _) eqn:E; [|discriminate].
    apply Rltb_true in E. intro H. replace (i + S n)%nat with (S i + n)%nat by lia.
    eapply IH; [|exact H]. apply S4. exact E.
Qed.

Lemma chol_rows_complete : forall n K i rows, chol_inv K i rows ->
  symmetric (i + n) K ->
  (forall r y, (r < i + n)%nat -> (forall s, (s < r)%nat -> rsum r (fun j => K s j * y j) = K r s) ->
     0 < K r r - rsum r (fun j => K r j * y j)) ->
  chol_rows Rops K n i rows <> None.
Proof.
  induction n as [|n IH]; intros K i rows CI Sy C; cbn [chol_rows]; [discriminate|].
  destruct (chol_step K i rows CI) as (S1 & S2 & S3 & S4).
  cbn [o_ltb o_zero o_sub o_dot o_sqrt Rops] in *. set (l := fsub Rops rows _ []) in *.
  destruct (low_bsub i rows l (proj1 CI)) as [B1 B2].
  destruct (schur i K (Lof rows) (fun _ => 1) (rg l) (rg l) (rg (bsub Rops (Lof rows) l i [])) (K i)) as [Q1 Q2].
  { apply chol_full; [|exact CI]. intros a b Ha Hb. apply Sy; lia. }
  { exact S3. } { exact B2. } { intros; ring. }
  assert (P : 0 < K i i - Rdot l l).
  { rewrite S2, <- Q2. apply C; [lia|]. exact Q1. }
  assert (E : Rltb 0 (K i i - Rdot l l) = true) by (apply Rltb_true; exact P). rewrite E.
  apply IH.
  - apply S4. exact P.
  - replace (S i + n)%nat with (i + S n)%nat by lia. exact Sy.
  - intros r y Hr. apply C. lia.
Qed.

(* positive definite matrices satisfy the pivot criterion *)
Lemma posdef_pivot n K : symmetric n K -> posdef n K ->
  forall r y, (r < n)%nat -> (forall s, (s < r)%nat -> rsum r (fun j => K s j * y j) = K r s) ->
     0 < K r r - rsum r (fun j => K r j * y j).
Proof.
  intros Sy PD r y Hr Hy.
  set (x := fun i => if Nat.ltb i r then - y i else if Nat.eqb i r then 1 else 0).
  assert (X : 0 < qform n K x).
  { apply PD. exists r. split; [exact Hr|]. unfold x. rewrite Nat.ltb_irrefl, Nat.eqb_refl. lra. }
  assert (E : qform n K x = K r r - rsum r (fun j => K r j * y j)); [|lra].
  unfold qform.
  assert (Zx : forall i, (S r <= i)%nat -> x i = 0).
  { intros i Hi. unfold x. destruct (Nat.ltb_spec i r); [lia|]. destruct (Nat.eqb_spec i r); [lia|reflexivity]. }
  assert (Xr : x r = 1) by (unfold x; rewrite Nat.ltb_irrefl, Nat.eqb_refl; reflexivity).
  assert (Xl : forall i, (i < r)%nat -> x i = - y i).
  { intros i Hi. unfold x. destruct (Nat.ltb_spec i r); [reflexivity|lia]. }
  assert (I : forall i, (i < n)%nat -> rsum n (fun j => x i * K i j * x j) =
              x i * (K i r - rsum r (fun j => K i j * y j))).
  { intros i Hi. rewrite (rsum_prefix (S r) n); [|lia|intros j J1 J2; rewrite (Zx j) by lia; ring].
    cbn [rsum]. rewrite Xr.
    rewrite (rsum_ext r _ (fun j => - x i * (K i j * y j))) by (intros j J; rewrite (Xl j J); ring).
    rewrite rsum_scal. ring. }
  rewrite (rsum_ext n _ _ I). rewrite (rsum_prefix (S r) n); [|lia|intros j J1 J2; rewrite (Zx j) by lia; ring].
  cbn [rsum]. rewrite Xr. rewrite rsum_zero; [ring|].
  intros i Hi. rewrite Hy by exact Hi. rewrite (Sy i r) by lia. ring.
Qed.

Lemma chol_inv_nil K : chol_inv K 0 [].
Proof. split; [split; [reflexivity|]|split]; intros; lia. Qed.

(* ---------- LDL' ---------- *)
Definition ldl_inv (K : nat -> nat -> R) (i : nat) (rows : list (vec R)) (d : vec R) : Prop :=
  low_rows i rows /\ length d = i /\ (forall k, (k < i)%nat -> rg d k <> 0) /\
  forall k j, (j <= k)%nat -> (k < i)%nat -> rsum (S j) (fun t => Lof rows k t * rg d t * Lof rows j t) = K k j.

Lemma ldl_step K i rows d : ldl_inv K i rows d ->
  let c := fsub Rops rows (tab i (fun j => K i j)) [] in
  let l := vquot Rops c d in
  let p := K i i - Rdot c l in
  length c = i /\ (forall t, (t < i)%nat -> rg l t = rg c t / rg d t) /\
  Rdot c l = rsum i (fun t => rg c t * rg l t) /\
  (forall r, (r < i)%nat -> rsum i (fun t => Lof rows r t * rg c t) = K i r) /\
  (p <> 0 ->
   ldl_inv K (S i) (rows ++ [l ++ [1]]) (d ++ [p])).
Proof.
  intros (LR & Ld & Hd & HK) c l p.
  destruct (low_fsub i rows (tab i (fun j => K i j)) LR) as [L1 L2]. fold c in L1, L2.
  assert (Ll : length l = i) by (unfold l; autorewrite with vlen; exact L1).
  assert (El : forall t, (t < i)%nat -> rg l t = rg c t / rg d t).
  { intros t Ht. unfold l, vquot. rewrite L1, (vget_tab Rops) by exact Ht. reflexivity. }
  assert (E2 : forall r, (r < i)%nat -> rsum i (fun t => Lof rows r t * rg c t) = K i r).
  { intros r Hr. rewrite L2 by exact Hr. apply (vget_tab Rops). exact Hr. }
  assert (E1 : Rdot c l = rsum i (fun t => rg c t * rg l t)) by (rewrite Rdot_rsum by lia; rewrite L1; reflexivity).
  split; [exact L1|]. split; [exact El|]. split; [exact E1|]. split; [exact E2|]. intros Hp.
  assert (Hl := proj1 LR).
  assert (Ne : forall t, (t < i)%nat -> Lof (rows ++ [l ++ [1]]) i t = rg l t).
  { intros t Ht. rewrite <- Hl. apply Lof_snoc_new. lia. }
  assert (De : Lof (rows ++ [l ++ [1]]) i i = 1).
  { rewrite <- Hl at 1. replace i with (length l) by exact Ll. apply Lof_snoc_diag. }
  assert (Dd : forall t, (t < i)%nat -> rg (d ++ [p]) t = rg d t) by (intros; apply rg_app1; lia).
  assert (Dp : rg (d ++ [p]) i = p).
  { rewrite rg_app2 by lia. rewrite Ld, Nat.sub_diag. reflexivity. }
  split; [apply low_snoc; [exact LR|exact Ll|lra]|]. split; [rewrite app_length; cbn; lia|]. split.
  - intros k Hk. destruct (Nat.eq_dec k i) as [->|E].
    + rewrite Dp. exact Hp.
    + rewrite Dd by lia. apply Hd. lia.
  - intros k j Hj Hk. destruct (Nat.eq_dec k i) as [->|E].
    + destruct (Nat.eq_dec j i) as [->|E'].
      * cbn [rsum]. rewrite De, Dp.
        rewrite (rsum_ext i _ (fun t => rg c t * rg l t)).
        2:{ intros t Ht. rewrite Ne, Dd, El by exact Ht. field. apply Hd. exact Ht. }
        unfold p. rewrite E1. ring.
      * rewrite (rsum_ext (S j) _ (fun t => Lof rows j t * rg c t)).
        2:{ intros t Ht. rewrite (Lof_snoc_old rows _ j) by lia. rewrite Ne, Dd, El by lia. field. apply Hd. lia. }
        rewrite <- (E2 j) by lia. symmetry. apply rsum_prefix; [lia|]. intros t T1 T2.
        rewrite (Lof_upper i) by (try assumption; lia). ring.
    + rewrite (rsum_ext (S j) _ (fun t => Lof rows k t * rg d t * Lof rows j t)).
      2:{ intros t Ht. rewrite !Lof_snoc_old by lia. rewrite Dd by lia. reflexivity. }
      apply HK; lia.
Qed.

Lemma ldl_full K i rows d : symmetric i K -> ldl_inv K i rows d ->
  forall r j, (r < i)%nat -> (j < i)%nat -> K r j = rsum i (fun t => Lof rows r t * rg d t * Lof rows j t).
Proof.
  intros Sy (LR & _ & _ & HK).
  assert (G : forall r j, (r < i)%nat -> (j <= r)%nat -> K r j = rsum i (fun t => Lof rows r t * rg d t * Lof rows j t)).
  { intros r j Hr Hj. rewrite <- HK by assumption. symmetry. apply rsum_prefix.
    - lia.
    - intros t T1 T2. rewrite (Lof_upper i rows j) by (try assumption; lia). ring. }
  intros r j Hr Hj. destruct (Nat.le_gt_cases j r) as [C|C]; [apply G; assumption|].
  rewrite Sy by assumption. rewrite G by lia. apply rsum_ext; intros; ring.
Qed.

Lemma ldl_rows_sound : forall n K i rows d out od, ldl_inv K i rows d ->
  ldl_rows Rops K n i rows d = Some (out, od) -> ldl_inv K (i + n) out od.
Proof.
  induction n as [|n IH]; intros K i rows d out od CI; cbn [ldl_rows].
  - intros [= <- <-]. rewrite Nat.add_0_r. exact CI.
  - destruct (ldl_step K i rows d CI) as (S1 & S2 & S3 & S4 & S5).
    cbn [o_eqb o_zero o_one o_sub o_dot Rops] in *.
    destruct (Reqb _ 0) eqn:E; [discriminate|].
    apply Reqb_false in E. intro H. replace (i + S n)%nat with (S i + n)%nat by lia.
    eapply IH; [|exact H]. apply S5. exact E.
Qed.

Lemma ldl_rows_complete : forall n K i rows d, ldl_inv K i rows d ->
  symmetric (i + n) K ->
  (forall r y, (r < i + n)%nat -> (forall s, (s < r)%nat -> rsum r (fun j => K s j * y j) = K r s) ->
     K r r - rsum r (fun j => K r j * y j) <> 0) ->
  ldl_rows Rops K n i rows d <> None.
Proof.
  induction n as [|n IH]; intros K i rows d CI Sy C; cbn [ldl_rows]; [discriminate|].
  destruct (ldl_step K i rows d CI) as (S1 & S2 & S3 & S4 & S5).
  cbn [o_eqb o_zero o_one o_sub o_dot Rops] in *.
  set (c := fsub Rops rows _ []) in *. set (l := vquot Rops c d) in *.
  destruct (low_bsub i rows l (proj1 CI)) as [B1 B2].
  destruct (schur i K (Lof rows) (rg d) (rg c) (rg l) (rg (bsub Rops (Lof rows) l i [])) (K i)) as [Q1 Q2].
  { apply ldl_full; [|exact CI]. intros a b Ha Hb. apply Sy; lia. }
  { exact S4. } { exact B2. }
  { intros t Ht. rewrite S2 by exact Ht. field. apply CI. exact Ht. }
  assert (P : K i i - Rdot c l <> 0).
  { rewrite S3, <- Q2. apply C; [lia|]. exact Q1. }
  assert (E : Reqb (K i i - Rdot c l) 0 = false) by (apply Reqb_false; exact P). rewrite E.
  apply IH.
  - apply S5. exact P.
  - replace (S i + n)%nat with (i + S n)%nat by lia. exact Sy.
  - intros r y Hr. apply C. lia.
Qed.

Lemma some_nonzero n (x : nat -> R) : (exists i, (i < n)%nat /\ x i <> 0) \/ (forall i, (i < n)%nat -> x i = 0).
Proof.
  induction n as [|n [(i & Hi & E)|IH]].
  - right. intros i Hi. lia.
  - left. exists i. split; [lia|exact E].
  - destruct (Req_dec (x n) 0) as [Z|Z].
    + right. intros i Hi. destruct (Nat.eq_dec i n) as [->|E]; [exact Z|apply IH; lia].
    + left. exists n. split; [lia|exact Z].
Qed.
Lemma posdef_nonneg n K x : posdef n K -> 0 <= qform n K x.
Proof.
  intro PD. destruct (some_nonzero n x) as [E|Z]; [left; apply PD; exact E|].
  right. symmetry. unfold qform. apply rsum_zero. intros i Hi. apply rsum_zero. intros j Hj.
  rewrite (Z i Hi). ring.
Qed.
Lemma posdef_sub n m K : (m <= n)%nat -> posdef n K -> posdef m K.
Proof.
  intros H PD x (i & Hi & E).
  set (y := fun i => if Nat.ltb i m then x i else 0).
  assert (Y : forall i, (i < m)%nat -> y i = x i).
  { intros j Hj. unfold y. destruct (Nat.ltb_spec j m); [reflexivity|lia]. }
  assert (Z : forall i, (m <= i)%nat -> y i = 0).
  { intros j Hj. unfold y. destruct (Nat.ltb_spec j m); [lia|reflexivity]. }
  replace (qform m K x) with (qform n K y).
  - apply PD. exists i. split; [lia|]. rewrite Y by exact Hi. exact E.
  - unfold qform. rewrite (rsum_prefix m n) by (try lia; intros a A1 A2; apply rsum_zero; intros b B;
      rewrite (Z a) by lia; ring).
    apply rsum_ext. intros a Ha. rewrite (rsum_prefix m n) by (try lia; intros b B1 B2; rewrite (Z b) by lia; ring).
    apply rsum_ext. intros b Hb. rewrite (Y a Ha), (Y b Hb). reflexivity.
Qed.

Lemma quasidef_pivot n p K : quasidef n p K ->
  forall r y, (r < n + p)%nat -> (forall s, (s < r)%nat -> rsum r (fun j => K s j * y j) = K r s) ->
     K r r - rsum r (fun j => K r j * y j) <> 0.
Proof.
  intros (Sy & PD & sg & Hs & B) r y Hr Hy.
  destruct (Nat.lt_ge_cases r n) as [C|C].
  - assert (0 < K r r - rsum r (fun j => K r j * y j)); [|lra].
    apply (posdef_pivot n K); try assumption. intros i j Hi Hj. apply Sy; lia.
  - replace r with (n + (r - n))%nat in * by lia. set (q := (r - n)%nat) in *. clearbody q. clear r C.
    assert (Hq : (q < p)%nat) by lia.
    assert (E1 : forall s, (s < n)%nat -> rsum n (fun j => K s j * y j) +
              rsum q (fun i => K s (n + i)%nat * y (n + i)%nat) = K (n + q)%nat s).
    { intros s Hs'. rewrite <- Hy by lia. rewrite rsum_split. reflexivity. }
    assert (E2 : forall i, (i < q)%nat -> rsum n (fun j => K (n + i)%nat j * y j) = sg * y (n + i)%nat).
    { intros i Hi. assert (K1 := Hy (n + i)%nat ltac:(lia)). rewrite rsum_split in K1.
      rewrite (B q i) in K1 by lia.
      rewrite (rsum_ext q _ (fun j => if Nat.eqb j i then - sg * y (n + j)%nat else 0)) in K1.
      2:{ intros j Hj. rewrite B by lia. rewrite (Nat.eqb_sym j i).
          destruct (Nat.eqb i j); ring. }
      rewrite rsum_if_eq in K1 by exact Hi. destruct (Nat.eqb_spec q i); [lia|]. lra. }
    rewrite rsum_split. rewrite (rsum_zero q).
    2:{ intros j Hj. rewrite B by lia. destruct (Nat.eqb_spec q j); [lia|]. ring. }
    rewrite B, Nat.eqb_refl by lia.
    assert (X : rsum n (fun j => K (n + q)%nat j * y j) =
                qform n K y + sg * rsum q (fun i => y (n + i)%nat * y (n + i)%nat)).
    { rewrite (rsum_ext n _ (fun s => rsum n (fun j => y s * K s j * y j) +
                rsum q (fun i => y s * K s (n + i)%nat * y (n + i)%nat))).
      2:{ intros s Hs'. rewrite <- E1 by exact Hs'. rewrite Rmult_plus_distr_r, <- !rsum_scal_r.
          f_equal; apply rsum_ext; intros; ring. }
      rewrite rsum_add. unfold qform. f_equal. rewrite rsum_swap, <- rsum_scal. apply rsum_ext.
      intros i Hi. rewrite <- Rmult_assoc, <- E2 by exact Hi. rewrite <- rsum_scal_r.
      apply rsum_ext. intros s Hs'. rewrite (Sy s (n + i)%nat) by lia. ring. }
    rewrite X. assert (Y := posdef_nonneg n K y PD).
    assert (W : 0 <= rsum q (fun i => y (n + i)%nat * y (n + i)%nat)) by (apply rsum_nonneg; intros; apply Rle_0_sqr).
    assert (0 <= sg * rsum q (fun i => y (n + i)%nat * y (n + i)%nat)) by (apply Rmult_le_pos; lra). lra.
Qed.

Lemma ldl_inv_nil K : ldl_inv K 0 [] [].
Proof. split; [split; [reflexivity|]|split; [reflexivity|split]]; intros; lia. Qed.

(* ---------- the laws ---------- *)
Theorem inst_laws : LALaws (inst_la Rops).
Proof.
  constructor; cbn [inst_la la_llt la_lsolve la_ltsolve la_ldlt_ok la_ldlt_solve].
  - intros K L n Hr Hc. unfold inst_llt. rewrite Hr.
    destruct (chol_rows Rops (rm K) n 0 []) as [rows|] eqn:E; [|discriminate]. intros [= <-].
    apply chol_rows_sound in E; [|apply chol_inv_nil]. cbn [Nat.add] in E. destruct E as (LR & PD & HK).
    assert (G : forall i j, (i < n)%nat -> (j < n)%nat -> rm (rows_mat Rops n rows) i j = Lof rows i j).
    { intros i j Hi Hj. unfold rows_mat. rewrite (mget_mtab Rops) by assumption. reflexivity. }
    split; [reflexivity|]. split; [reflexivity|]. split.
    + intros i Hi. rewrite G by assumption. apply PD. exact Hi.
    + intros i j Hj Hi. rewrite <- HK by assumption. apply rsum_ext. intros k Hk.
      rewrite !G by lia. reflexivity.
  - intros K n Hr Hc Sy PD. unfold inst_llt. rewrite Hr.
    assert (X := chol_rows_complete n (rm K) 0 [] (chol_inv_nil _) Sy (posdef_pivot n _ Sy PD)).
    destruct (chol_rows Rops (rm K) n 0 []); [discriminate|contradiction].
  - intros M b n Hr Hc Hb Hd. unfold inst_lsolve. rewrite Hr.
    destruct (fsub_spec (tab n (mrow Rops M)) b []) as (F1 & _ & F3).
    { intros k Hk. rewrite tab_length in Hk. cbn [length Nat.add]. rewrite (tab_nth _ _ _ _ Hk).
      rewrite (mrow_len Rops), Hc. split; [exact Hk|]. unfold mrow. rewrite (vget_tab Rops) by lia. apply Hd. exact Hk. }
    cbn [length Nat.add] in F1, F3. rewrite tab_length in F1, F3. split; [exact F1|].
    intros i Hi. rewrite <- (F3 i Hi). apply rsum_ext. intros j Hj. rewrite (tab_nth _ _ _ _ Hi).
    unfold mrow. rewrite (vget_tab Rops) by lia. reflexivity.
  - intros M b n Hr Hc Hb Hd. unfold inst_ltsolve. rewrite Hr.
    destruct (bsub_spec n (rm M) b [] Hd) as (F1 & _ & F3). cbn [length] in F1, F3.
    rewrite Nat.add_0_r in F1, F3. split; assumption.
  - intros K b n Hr Hc Hb Sy _. unfold inst_ldlt_ok, inst_ldlt_solve. rewrite Hr.
    destruct (ldl_rows Rops (rm K) n 0 [] []) as [[rows d]|] eqn:E; [|discriminate]. intros _.
    apply ldl_rows_sound in E; [|apply ldl_inv_nil]. cbn [Nat.add] in E.
    destruct (low_fsub n rows b (proj1 E)) as [F1 F2].
    set (y := fsub Rops rows b []) in *. set (w := vquot Rops y d).
    change (fun i j => rg (nth i rows []) j) with (Lof rows).
    destruct (low_bsub n rows w (proj1 E)) as [B1 B2]. split; [exact B1|].
    apply (schur n (rm K) (Lof rows) (rg d) (rg y) (rg w) _ (rg b)).
    + apply ldl_full; assumption.
    + exact F2.
    + exact B2.
    + intros t Ht. unfold w, vquot. rewrite F1, (vget_tab Rops) by exact Ht. cbn [o_div Rops]. field.
      apply E. exact Ht.
  - intros K n p Hr Hc Q. unfold inst_ldlt_ok. rewrite Hr.
    assert (X := ldl_rows_complete (n + p) (rm K) 0 [] [] (ldl_inv_nil _) (proj1 Q) (quasidef_pivot n p _ Q)).
    destruct (ldl_rows Rops (rm K) (n + p) 0 [] []); [reflexivity|contradiction].
Qed.
Print Assumptions inst_laws.
