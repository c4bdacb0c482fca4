(* MpcData in rounded arithmetic: the block operations approximate the products with the explicit QP of the
   optimal control problem whose coefficients are the values of the floating-point data. *)
From Verif Require Export DenseFloat MpcExplicit.
Local Open Scope R_scope.

(* sums of stage segments *)
Lemma bs_in a n w off len (g : nat -> nat -> R) k i : (a <= k < a + n)%nat -> (i < len)%nat -> (off + len <= w)%nat ->
  rsum n (fun j => seg ((a + j) * w + off) len (g (a + j)%nat) (k * w + off + i)) = g k i.
Proof.
  intros Hk Hi Hw. rewrite (rsum_single n (k - a)).
  - replace (a + (k - a))%nat with k by lia. apply seg_in. exact Hi.
  - lia.
  - intros j Hj E. apply seg_out. destruct (blk_out k (a + j) w (off + i)) as [H|H]; lia.
Qed.
Lemma bs_out a n w off len (g : nat -> nat -> R) k r : (r < w)%nat -> (off + len <= w)%nat ->
  (k < a \/ a + n <= k \/ r < off \/ off + len <= r)%nat ->
  rsum n (fun j => seg ((a + j) * w + off) len (g (a + j)%nat) (k * w + r)) = 0.
Proof.
  intros Hr Hw H. apply rsum_zero. intros j Hj. apply seg_out.
  destruct (Nat.eq_dec (a + j) k) as [E|E]; [subst k; lia|]. destruct (blk_out k (a + j) w r) as [B|B]; lia.
Qed.

(* the stage increments of the products, and their sums *)
Section Inc.
  Variable o : OCP.
  Notation N := (oN o). Notation nx := (onx o). Notation nu := (onu o). Notation nc := (onc o).
  Notation w := (nx + nu)%nat. Notation P := (ocp_qp o).
  Variables x : nat -> R.
  Definition incH (k p : nat) : R :=
    seg (k * w + 0) nx (fun i => times nx (cQ o k) (xs o x k) i + ttimes nu (cS o k) (us o x k) i) p +
    seg (k * w + nx) nu (fun i => times nx (cS o k) (xs o x k) i + times nu (cR o k) (us o x k) i) p.
  Lemma sumH p : (p < n_z P)%nat -> rsum (N + 1) (fun j => incH (0 + j) p) = times (n_z P) (cH P) x p.
  Proof.
    revert p. cbn [n_z ocp_qp]. unfold incH.
    apply (flat_xu o (fun p => rsum (N + 1) _ = times (n_z P) (cH P) x p)); intros k i Hk Hi; rewrite rsum_add.
    - rewrite H_x by assumption. replace (k * w + i)%nat with (k * w + 0 + i)%nat by lia.
      rewrite (bs_in 0 (N + 1) w 0 nx (fun k i => times nx (cQ o k) (xs o x k) i + ttimes nu (cS o k) (us o x k) i)) by lia.
      replace (k * w + 0 + i)%nat with (k * w + i)%nat by lia.
      rewrite (bs_out 0 (N + 1) w nx nu (fun k i => times nx (cS o k) (xs o x k) i + times nu (cR o k) (us o x k) i)) by lia. ring.
    - rewrite H_u by assumption.
      rewrite (bs_in 0 (N + 1) w nx nu (fun k i => times nx (cS o k) (xs o x k) i + times nu (cR o k) (us o x k) i)) by lia.
      replace (k * w + nx + i)%nat with (k * w + (nx + i))%nat by lia.
      rewrite (bs_out 0 (N + 1) w 0 nx (fun k i => times nx (cQ o k) (xs o x k) i + ttimes nu (cS o k) (us o x k) i)) by lia. ring.
  Qed.
  Definition incA (a : R) (k p : nat) : R :=
    seg (k * nc + 0) nc (fun i => a * (times nx (oE o k) (xs o x k) i + times nu (oL o k) (us o x k) i)) p.
  Lemma sumA a p : (p < n_v P)%nat -> rsum (N + 1) (fun j => incA a (0 + j) p) = a * times (n_z P) (cA P) x p.
  Proof.
    revert p. cbn [n_v ocp_qp]. unfold incA.
    apply flat. intros k i Hk Hi. change ((N + 1) * w)%nat with (n_z P). rewrite A_row by assumption.
    replace (k * nc + i)%nat with (k * nc + 0 + i)%nat by lia.
    rewrite (bs_in 0 (N + 1) nc 0 nc (fun k i => a * (times nx (oE o k) (xs o x k) i + times nu (oL o k) (us o x k) i))) by lia. reflexivity.
  Qed.
  Definition incAT (k p : nat) : R :=
    seg (k * w + 0) nx (fun i => ttimes nc (oE o k) (vs o x k) i) p +
    seg (k * w + nx) nu (fun i => ttimes nc (oL o k) (vs o x k) i) p.
  Lemma sumAT p : (p < n_z P)%nat -> rsum (N + 1) (fun j => incAT (0 + j) p) = ttimes (n_v P) (cA P) x p.
  Proof.
    revert p. cbn [n_z ocp_qp]. unfold incAT.
    apply (flat_xu o (fun p => rsum (N + 1) _ = ttimes (n_v P) (cA P) x p)); intros k i Hk Hi; rewrite rsum_add.
    - rewrite AT_x by assumption. replace (k * w + i)%nat with (k * w + 0 + i)%nat by lia.
      rewrite (bs_in 0 (N + 1) w 0 nx (fun k i => ttimes nc (oE o k) (vs o x k) i)) by lia.
      replace (k * w + 0 + i)%nat with (k * w + i)%nat by lia.
      rewrite (bs_out 0 (N + 1) w nx nu (fun k i => ttimes nc (oL o k) (vs o x k) i)) by lia. ring.
    - rewrite AT_u by assumption.
      rewrite (bs_in 0 (N + 1) w nx nu (fun k i => ttimes nc (oL o k) (vs o x k) i)) by lia.
      replace (k * w + nx + i)%nat with (k * w + (nx + i))%nat by lia.
      rewrite (bs_out 0 (N + 1) w 0 nx (fun k i => ttimes nc (oE o k) (vs o x k) i)) by lia. ring.
  Qed.
  (* -1 times G *)
  Definition incG (k p : nat) : R :=
    seg (k * nx + 0) nx (fun i => -1 * (times nx (oA o (k - 1)) (xs o x (k - 1)) i + times nu (oB o (k - 1)) (us o x (k - 1)) i)) p +
    seg (k * nx + 0) nx (fun i => xs o x k i) p.
  Lemma sumG p : (p < n_l P)%nat -> seg 0 nx (fun i => xs o x 0 i) p + rsum N (fun j => incG (1 + j) p) = - times (n_z P) (cG P) x p.
  Proof.
    revert p. cbn [n_l ocp_qp]. unfold incG.
    apply (flat_l o (fun p => _ + rsum N _ = - times (n_z P) (cG P) x p)).
    - intros i Hi. rewrite G_0 by assumption. rewrite rsum_add. rewrite (seg_in 0 nx _ i Hi).
      pose proof (bs_out 1 N nx 0 nx (fun k i => -1 * (times nx (oA o (k - 1)) (xs o x (k - 1)) i + times nu (oB o (k - 1)) (us o x (k - 1)) i)) 0 i Hi ltac:(lia) ltac:(lia)) as B1.
      pose proof (bs_out 1 N nx 0 nx (fun k i => xs o x k i) 0 i Hi ltac:(lia) ltac:(lia)) as B2.
      cbn [Nat.mul Nat.add] in B1, B2 |- *. rewrite B1, B2. ring.
    - intros k i Hk Hi. rewrite G_S by assumption. rewrite rsum_add. rewrite (seg_out 0) by nia.
      replace (S k * nx + i)%nat with (S k * nx + 0 + i)%nat by lia.
      rewrite (bs_in 1 N nx 0 nx (fun k i => -1 * (times nx (oA o (k - 1)) (xs o x (k - 1)) i + times nu (oB o (k - 1)) (us o x (k - 1)) i))) by lia.
      rewrite (bs_in 1 N nx 0 nx (fun k i => xs o x k i)) by lia. replace (S k - 1)%nat with k by lia. ring.
  Qed.
  (* a times G' *)
  Definition incGT (a : R) (k p : nat) : R :=
    seg (k * w + 0) nx (fun i => - a * ls o x k i) p +
    seg (k * w + 0) nx (fun i => a * ttimes nx (oA o k) (ls o x (S k)) i) p +
    seg (k * w + nx) nu (fun i => a * ttimes nx (oB o k) (ls o x (S k)) i) p.
  Lemma sumGT a p : (p < n_z P)%nat ->
    rsum N (fun j => incGT a (0 + j) p) + seg (N * w) nx (fun i => - a * ls o x N i) p = a * ttimes (n_l P) (cG P) x p.
  Proof.
    revert p. cbn [n_z ocp_qp]. unfold incGT.
    apply (flat_xu o (fun p => rsum N _ + _ = a * ttimes (n_l P) (cG P) x p)); intros k i Hk Hi; rewrite !rsum_add.
    - rewrite (bs_out 0 N w nx nu (fun k i => a * ttimes nx (oB o k) (ls o x (S k)) i)) by lia.
      destruct (Nat.eq_dec k N) as [ -> |NE].
      + rewrite GT_N_x by assumption. rewrite (bs_out 0 N w 0 nx (fun k i => - a * ls o x k i)) by lia.
        rewrite (bs_out 0 N w 0 nx (fun k i => a * ttimes nx (oA o k) (ls o x (S k)) i)) by lia.
        rewrite seg_in by exact Hi. ring.
      + rewrite GT_x by (assumption || lia). rewrite (seg_out (N * w)) by (destruct (blk_out k N w i); lia).
        replace (k * w + i)%nat with (k * w + 0 + i)%nat by lia.
        rewrite (bs_in 0 N w 0 nx (fun k i => - a * ls o x k i)) by lia.
        rewrite (bs_in 0 N w 0 nx (fun k i => a * ttimes nx (oA o k) (ls o x (S k)) i)) by lia. ring.
    - assert (RW : (k * w + nx + i)%nat = (k * w + (nx + i))%nat) by lia.
      pose proof (bs_out 0 N w 0 nx (fun k i => - a * ls o x k i) k (nx + i) ltac:(lia) ltac:(lia) ltac:(lia)) as B1.
      pose proof (bs_out 0 N w 0 nx (fun k i => a * ttimes nx (oA o k) (ls o x (S k)) i) k (nx + i) ltac:(lia) ltac:(lia) ltac:(lia)) as B2.
      rewrite <- RW in B1, B2. rewrite B1, B2.
      destruct (Nat.eq_dec k N) as [ -> |NE].
      + pose proof (bs_out 0 N w nx nu (fun k i => a * ttimes nx (oB o k) (ls o x (S k)) i) N (nx + i) ltac:(lia) ltac:(lia) ltac:(lia)) as B3.
        rewrite <- RW in B3. rewrite B3. rewrite GT_N_u by assumption. rewrite seg_out by lia. ring.
      + rewrite GT_u by (assumption || lia). rewrite (seg_out (N * w)) by (rewrite RW; destruct (blk_out k N w (nx + i)); lia).
        rewrite (bs_in 0 N w nx nu (fun k i => a * ttimes nx (oB o k) (ls o x (S k)) i)) by lia. ring.
  Qed.
End Inc.

(* the OCP of the sizes of the coefficients (A and B with a minus sign: G contains -I) *)
Definition oabs (o : OCP) : OCP := {|
  oN := oN o; onx := onx o; onu := onu o; onc := onc o;
  cQ := fun k i j => Rabs (cQ o k i j); cR := fun k i j => Rabs (cR o k i j); cS := fun k i j => Rabs (cS o k i j);
  cq := cq o; cr := cr o;
  oA := fun k i j => - Rabs (oA o k i j); oB := fun k i j => - Rabs (oB o k i j); oc := oc o;
  oE := fun k i j => Rabs (oE o k i j); oL := fun k i j => Rabs (oL o k i j); od := od o; ox0 := ox0 o |}.
Section Abs.
  Variable o : OCP.
  Notation P := (ocp_qp o). Notation P' := (ocp_qp (oabs o)).
  Notation ab x := (fun j : nat => Rabs (x j)).
  Lemma absH z p : rsum (n_z P) (fun q => Rabs (cH P p q * z q)) = times (n_z P') (cH P') (ab z) p.
  Proof.
    unfold times. apply rsum_ext. intros q Hq. rewrite Rabs_mult. f_equal. cbn [cH ocp_qp oabs onx onu].
    destruct (_ =? _)%nat; [|apply Rabs_R0]. unfold stageH. cbn [onx cQ cR cS oabs].
    destruct (_ <? _)%nat; destruct (_ <? _)%nat; reflexivity.
  Qed.
  Lemma absA z p : rsum (n_z P) (fun q => Rabs (cA P p q * z q)) = times (n_z P') (cA P') (ab z) p.
  Proof.
    unfold times. apply rsum_ext. intros q Hq. rewrite Rabs_mult. f_equal. cbn [cA ocp_qp oabs onx onu onc].
    destruct (_ =? _)%nat; [|apply Rabs_R0]. unfold stageEL. cbn [onx oE oL oabs]. destruct (_ <? _)%nat; reflexivity.
  Qed.
  Lemma absAT v p : rsum (n_v P) (fun q => Rabs (cA P q p * v q)) = ttimes (n_v P') (cA P') (ab v) p.
  Proof.
    unfold ttimes. apply rsum_ext. intros q Hq. rewrite Rabs_mult. f_equal. cbn [cA ocp_qp oabs onx onu onc].
    destruct (_ =? _)%nat; [|apply Rabs_R0]. unfold stageEL. cbn [onx oE oL oabs]. destruct (_ <? _)%nat; reflexivity.
  Qed.
  Lemma absG_entry p q : Rabs (cG P p q) = - cG P' p q.
  Proof.
    cbn [cG ocp_qp oabs onx onu]. assert (M1 : Rabs (-1) = 1) by (rewrite Rabs_left by lra; ring).
    destruct (_ =? _)%nat; [destruct (_ =? _)%nat; rewrite ?M1, ?Rabs_R0; ring|].
    destruct (_ =? _)%nat; [|rewrite Rabs_R0; ring]. unfold stageAB. cbn [onx oA oB oabs]. destruct (_ <? _)%nat; ring.
  Qed.
  Lemma absG z p : rsum (n_z P) (fun q => Rabs (cG P p q * z q)) = - times (n_z P') (cG P') (ab z) p.
  Proof.
    unfold times. rewrite <- rsum_opp. apply rsum_ext. intros q Hq. rewrite Rabs_mult, absG_entry. ring.
  Qed.
  Lemma absGT l p : rsum (n_l P) (fun q => Rabs (cG P q p * l q)) = -1 * ttimes (n_l P') (cG P') (ab l) p.
  Proof.
    unfold ttimes. rewrite <- rsum_scal. apply rsum_ext. intros q Hq. rewrite Rabs_mult, absG_entry. ring.
  Qed.
End Abs.

Section MpcFloat.
  Context {T : Type} {O : Ops T} {fin : T -> Prop} {val : T -> R} {u eta : R}.
  Hypothesis W : Rounded O fin val u eta.
  Notation nr := (@near T val u eta).
  Notation vv := (fun x i => val (vget O x i)).
  Notation vg := (vget O).
  Notation ab x := (fun j : nat => Rabs (x j)).

  (* y' is y plus inc, with kk more roundings, cc more underflows and terms of total size mg; a finite result
     entry p needs a finite entry of y and whatever Q p says *)
  Definition finc (y y' : vec T) (kk : nat) (cc : R) (inc mg : nat -> R) (Q : nat -> Prop) : Prop :=
    length y' = length y /\ 0 <= cc /\ forall p, (p < length y)%nat -> fin (vg y' p) ->
      fin (vg y p) /\ Q p /\ forall k c m t, 0 <= c -> nr k c m (vg y p) t -> nr (k + kk) (c + cc) (m + mg p) (vg y' p) (t + inc p).

  Lemma finc_trans y y1 y2 k1 c1 i1 m1 Q1 k2 c2 i2 m2 Q2 : finc y y1 k1 c1 i1 m1 Q1 -> finc y1 y2 k2 c2 i2 m2 Q2 ->
    finc y y2 (k1 + k2) (c1 + c2) (fun p => i1 p + i2 p) (fun p => m1 p + m2 p) (fun p => Q1 p /\ Q2 p).
  Proof.
    intros (L1 & C1 & H1) (L2 & C2 & H2). split; [congruence|]. split; [lra|]. intros p Hp F.
    destruct (H2 p ltac:(lia) F) as (F1 & A2 & N2). destruct (H1 p Hp F1) as (F0 & A1 & N1).
    split; [exact F0|]. split; [split; assumption|]. intros k c m t Hc N.
    specialize (N1 k c m t Hc N). specialize (N2 (k + k1)%nat (c + c1) (m + m1 p) (t + i1 p) ltac:(lra) N1).
    rewrite Nat.add_assoc, <- !Rplus_assoc. exact N2.
  Qed.
  Lemma finc_weaken y y1 k1 c1 i1 m1 (Q1 : nat -> Prop) k2 c2 i2 m2 (Q2 : nat -> Prop) : finc y y1 k1 c1 i1 m1 Q1 ->
    (k1 <= k2)%nat -> c1 <= c2 -> (forall p, (p < length y)%nat -> i1 p = i2 p /\ m1 p <= m2 p) ->
    (forall p, (p < length y)%nat -> Q1 p -> Q2 p) -> finc y y1 k2 c2 i2 m2 Q2.
  Proof.
    intros (L1 & C1 & H1) Hk Hc H HQ. split; [exact L1|]. split; [lra|]. intros p Hp F.
    destruct (H1 p Hp F) as (F0 & A1 & N1). split; [exact F0|]. split; [apply HQ; assumption|].
    intros k c m t Hc0 N. destruct (H p Hp) as (<- & Hm). eapply (near_weaken W); [apply (N1 k c m t Hc0 N)|lia|lra|lra].
  Qed.

  Lemma floop (f : nat -> vec T -> res (vec T)) kk cc (inc mg : nat -> nat -> R) (Q : nat -> nat -> Prop) L n : forall i y,
    length y = L -> 0 <= cc ->
    (forall j y, (i <= j < i + n)%nat -> length y = L -> exists y', f j y = Ok y' /\ finc y y' kk cc (inc j) (mg j) (Q j)) ->
    exists y', for_from n i f y = Ok y' /\
      finc y y' (n * kk) (INR n * cc) (fun p => rsum n (fun j => inc (i + j)%nat p)) (fun p => rsum n (fun j => mg (i + j)%nat p))
           (fun p => forall j, (j < n)%nat -> Q (i + j)%nat p).
  Proof.
    induction n as [|n IH]; intros i y Ly Hc H; cbn [for_from].
    - exists y. split; [reflexivity|]. split; [reflexivity|]. split; [cbn; lra|]. intros p Hp F. split; [exact F|].
      split; [intros; lia|]. intros k c m t Hc0 N. cbn [Nat.mul INR rsum]. rewrite Nat.add_0_r, Rmult_0_l, !Rplus_0_r. exact N.
    - destruct (H i y) as (y1 & E1 & P1); [lia|exact Ly|]. rewrite E1. cbn [rbind].
      destruct (IH (S i) y1) as (y2 & E2 & P2); [destruct P1; congruence|exact Hc|intros j z Hj; apply H; lia|].
      exists y2. split; [exact E2|]. eapply finc_weaken; [eapply finc_trans; [exact P1|exact P2]|cbn; lia| | |].
      + rewrite S_INR. lra.
      + intros p Hp. cbn beta. rewrite !rsum_first. rewrite Nat.add_0_r. split; [|apply Req_le]; f_equal; apply rsum_ext; intros j _; f_equal; lia.
      + intros p Hp [Q1 Q2] [|j] Hj; [rewrite Nat.add_0_r; exact Q1|]. replace (i + S j)%nat with (S i + j)%nat by lia. apply Q2. lia.
  Qed.

  (* the segment updates *)
  Definition qseg (s n : nat) (Q : nat -> Prop) (p : nat) : Prop := forall i, (i < n)%nat -> p = (s + i)%nat -> Q i.
  Lemma fseg y s n f kk cc g mg (Q : nat -> Prop) : 0 <= cc ->
    (forall i, (i < n)%nat -> fin (f i) -> fin (vg y (s + i)%nat) /\ Q i /\
       forall k c m t, 0 <= c -> nr k c m (vg y (s + i)%nat) t -> nr (k + kk) (c + cc) (m + mg i) (f i) (t + g i)) ->
    finc y (seg_upd O y s n f) kk cc (seg s n g) (seg s n mg) (qseg s n Q).
  Proof.
    intros Hc H. unfold seg_upd. split; [apply tab_length|]. split; [exact Hc|]. intros p Hp F.
    rewrite (vget_tab O) in F |- * by exact Hp. unfold seg, qseg.
    destruct (Nat.leb_spec s p) as [L1|L1]; destruct (Nat.ltb_spec p (s + n)) as [L2|L2]; cbn [andb] in *.
    1: { destruct (H (p - s)%nat ltac:(lia) F) as (F0 & Q0 & N0). replace (s + (p - s))%nat with p in F0, N0 by lia.
      split; [exact F0|]. split; [|exact N0]. intros i Hi E. replace i with (p - s)%nat by lia. exact Q0. }
    all: split; [exact F|]; split; [intros; lia|]; intros k c m t Hc0 N; rewrite !Rplus_0_r; eapply (near_weaken W); [exact N|lia|lra|lra].
  Qed.

  (* a = 1 or a = -1 *)
  Definition unit_of (a : T) (s : R) : Prop := (a = o_one O /\ s = 1) \/ (a = o_mone O /\ s = -1).
  Lemma eqb_11 : o_eqb O (o_one O) (o_one O) = true.
  Proof. destruct (rd_one _ _ _ _ _ W) as (F & V). apply (rd_eqb _ _ _ _ _ W); auto. Qed.
  Lemma mone_fv : fin (o_mone O) /\ val (o_mone O) = -1.
  Proof.
    destruct (rd_one _ _ _ _ _ W) as (F & V). unfold o_mone. destruct (rd_opp_fin _ _ _ _ _ W _ F) as (F1 & ->). split; [exact F1|]. rewrite V. ring.
  Qed.
  Lemma eqb_m1 : o_eqb O (o_mone O) (o_one O) = false.
  Proof.
    destruct (rd_one _ _ _ _ _ W) as (F & V). destruct mone_fv as (Fm & Vm).
    destruct (o_eqb O (o_mone O) (o_one O)) eqn:E; [|reflexivity]. apply (rd_eqb _ _ _ _ _ W) in E; auto. lra.
  Qed.
  Lemma eqb_mm : o_eqb O (o_mone O) (o_mone O) = true.
  Proof. destruct mone_fv as (Fm & Vm). apply (rd_eqb _ _ _ _ _ W); auto. Qed.
  Lemma eqb_10 : o_eqb O (o_one O) (o_zero O) = false.
  Proof.
    destruct (rd_one _ _ _ _ _ W) as (F & V). destruct (rd_zero _ _ _ _ _ W) as (F0 & V0).
    destruct (o_eqb O (o_one O) (o_zero O)) eqn:E; [|reflexivity]. apply (rd_eqb _ _ _ _ _ W) in E; auto. lra.
  Qed.
  Lemma prescale_1 y : prescale O (o_one O) y = y.
  Proof. unfold prescale. rewrite eqb_10, eqb_11. reflexivity. Qed.

  Lemma facc2 a sg s n p1 p2 y n1 n2 sz t1 t2 m1 m2 (Q1 Q2 : nat -> Prop) : unit_of a sg -> (n1 + n2 + 4 <= sz)%nat ->
    (forall i, (i < n)%nat -> fin (vg p1 i) -> Q1 i /\ nr (n1 + 1) (2 * INR n1) (m1 i) (vg p1 i) (t1 i)) ->
    (forall i, (i < n)%nat -> fin (vg p2 i) -> Q2 i /\ nr (n2 + 1) (2 * INR n2) (m2 i) (vg p2 i) (t2 i)) ->
    finc y (acc2 O a s n p1 p2 y) sz (2 * INR sz) (seg s n (fun i => sg * (t1 i + t2 i))) (seg s n (fun i => m1 i + m2 i)) (qseg s n (fun i => Q1 i /\ Q2 i)).
  Proof.
    intros Ha Hs H1 H2. pose proof (pos_INR n1) as I1. pose proof (pos_INR n2) as I2. pose proof (pos_INR sz) as I3.
    assert (IS : 2 * INR n1 + 2 * INR n2 + 8 <= 2 * INR sz) by (apply le_INR in Hs; rewrite !plus_INR in Hs; cbn [INR] in Hs; lra).
    assert (SUM : forall i, (i < n)%nat -> fin (o_add O (vg p1 i) (vg p2 i)) -> (Q1 i /\ Q2 i) /\
      nr (n1 + n2 + 2) (2 * INR n1 + 2 * INR n2 + 1) (m1 i + m2 i) (o_add O (vg p1 i) (vg p2 i)) (t1 i + t2 i)).
    { intros i Hi F. destruct (rd_add _ _ _ _ _ W _ _ F) as (F1 & F2 & _).
      destruct (H1 i Hi F1) as (q1 & N1). destruct (H2 i Hi F2) as (q2 & N2). split; [split; assumption|].
      replace (n1 + n2 + 2)%nat with (n1 + n2 + 1 + 1)%nat by lia. apply (near_add W); [lra|lra|exact F| |].
      - eapply (near_weaken W); [exact N1|lia|lra|lra].
      - eapply (near_weaken W); [exact N2|lia|lra|lra]. }
    destruct Ha as [( -> & -> )|( -> & -> )]; unfold acc2.
    - rewrite eqb_11. apply fseg; [lra|]. intros i Hi F. destruct (rd_add _ _ _ _ _ W _ _ F) as (Fy & Fp & _).
      destruct (SUM i Hi Fp) as (q & NS). split; [exact Fy|]. split; [exact q|]. intros k c m t Hc N. rewrite Rmult_1_l.
      assert (X : nr (k + n1 + n2 + 2 + 1) (c + (2 * INR n1 + 2 * INR n2 + 1) + 1) (m + (m1 i + m2 i)) (o_add O (vg y (s + i)%nat) (o_add O (vg p1 i) (vg p2 i))) (t + (t1 i + t2 i))).
      { apply (near_add W); [lra|lra|exact F| |].
        - eapply (near_weaken W); [exact N|lia|lra|lra].
        - eapply (near_weaken W); [exact NS|lia|lra|lra]. }
      eapply (near_weaken W); [exact X|lia|lra|lra].
    - rewrite eqb_m1, eqb_mm. apply fseg; [lra|]. intros i Hi F. destruct (rd_sub _ _ _ _ _ W _ _ F) as (Fy & Fp & _).
      destruct (SUM i Hi Fp) as (q & NS). split; [exact Fy|]. split; [exact q|]. intros k c m t Hc N.
      assert (X : nr (k + n1 + n2 + 2 + 1) (c + (2 * INR n1 + 2 * INR n2 + 1) + 1) (m + (m1 i + m2 i)) (o_sub O (vg y (s + i)%nat) (o_add O (vg p1 i) (vg p2 i))) (t - (t1 i + t2 i))).
      { apply (near_sub W); [lra|lra|exact F| |].
        - eapply (near_weaken W); [exact N|lia|lra|lra].
        - eapply (near_weaken W); [exact NS|lia|lra|lra]. }
      replace (t + -1 * (t1 i + t2 i)) with (t - (t1 i + t2 i)) by ring. eapply (near_weaken W); [exact X|lia|lra|lra].
  Qed.
  (* only a = 1 is needed for one product *)
  Lemma facc1 s n p1 y n1 sz t1 m1 (Q1 : nat -> Prop) : (n1 + 4 <= sz)%nat ->
    (forall i, (i < n)%nat -> fin (vg p1 i) -> Q1 i /\ nr (n1 + 1) (2 * INR n1) (m1 i) (vg p1 i) (t1 i)) ->
    finc y (acc1 O (o_one O) s n p1 y) sz (2 * INR sz) (seg s n t1) (seg s n m1) (qseg s n Q1).
  Proof.
    intros Hs H1. pose proof (pos_INR n1) as I1. pose proof (pos_INR sz) as I3.
    assert (IS : 2 * INR n1 + 8 <= 2 * INR sz) by (apply le_INR in Hs; rewrite !plus_INR in Hs; cbn [INR] in Hs; lra).
    unfold acc1. rewrite eqb_11. apply fseg; [lra|]. intros i Hi F. destruct (rd_add _ _ _ _ _ W _ _ F) as (Fy & Fp & _).
    destruct (H1 i Hi Fp) as (q & NS). split; [exact Fy|]. split; [exact q|]. intros k c m t Hc N.
    assert (X : nr (k + n1 + 2 + 1) (c + (2 * INR n1) + 1) (m + m1 i) (o_add O (vg y (s + i)%nat) (vg p1 i)) (t + t1 i)).
    { apply (near_add W); [lra|lra|exact F| |].
      - eapply (near_weaken W); [exact N|lia|lra|lra].
      - eapply (near_weaken W); [exact NS|lia|lra|lra]. }
    eapply (near_weaken W); [exact X|lia|lra|lra].
  Qed.
  (* plus a plain vector *)
  Lemma fplus s n f x sz y : (4 <= sz)%nat ->
    (forall i, (i < n)%nat -> f i = o_add O (vg y (s + i)%nat) (vg x i)) ->
    finc y (seg_upd O y s n f) sz (2 * INR sz) (seg s n (vv x)) (seg s n (ab (vv x))) (qseg s n (fun i => fin (vg x i))).
  Proof.
    intros Hs Hf. pose proof (pos_INR sz) as I3. assert (IS : 8 <= 2 * INR sz) by (apply le_INR in Hs; cbn [INR] in Hs; lra).
    apply fseg; [lra|]. intros i Hi F. rewrite Hf in F |- * by exact Hi. destruct (rd_add _ _ _ _ _ W _ _ F) as (Fy & Fp & _).
    split; [exact Fy|]. split; [exact Fp|]. intros k c m t Hc N.
    assert (X : nr (k + 1) (c + 0 + 1) (m + Rabs (val (vg x i))) (o_add O (vg y (s + i)%nat) (vg x i)) (t + val (vg x i))).
    { apply (near_add W); [lra|lra|exact F|exact N|]. eapply (near_weaken W); [apply near_exact|lia|lra|lra]. }
    eapply (near_weaken W); [exact X|lia|lra|lra].
  Qed.
  Lemma facc_vec a s n x sz y : (4 <= sz)%nat ->
    finc y (acc_vec O a s n x y) sz (2 * INR sz) (seg s n (fun i => val a * val (vg x i))) (seg s n (fun i => Rabs (val a * val (vg x i))))
      (qseg s n (fun i => fin a /\ fin (vg x i))).
  Proof.
    intros Hs. pose proof (pos_INR sz) as I3. assert (IS : 8 <= 2 * INR sz) by (apply le_INR in Hs; cbn [INR] in Hs; lra).
    unfold acc_vec. apply fseg; [lra|]. intros i Hi F. destruct (rd_add _ _ _ _ _ W _ _ F) as (Fy & Fm & _).
    destruct (rd_mul _ _ _ _ _ W _ _ Fm) as (Fa & Fx & Em). split; [exact Fy|]. split; [split; assumption|]. intros k c m t Hc N.
    pose proof (rd_u _ _ _ _ _ W) as Hu. pose proof (rd_eta _ _ _ _ _ W) as He.
    assert (N1 : nr (k + 1) 1 (Rabs (val a * val (vg x i))) (o_mul O a (vg x i)) (val a * val (vg x i))).
    { apply (near_weaken W 1 1 (Rabs (val a * val (vg x i)))); [|lia|lra|lra]. split; [lra|]. rewrite pow_1.
      assert (0 <= u * eta) by (apply Rmult_le_pos; assumption). nra. }
    assert (N2 : nr (k + 1) c m (vg y (s + i)%nat) t) by (eapply (near_weaken W); [exact N|lia|lra|lra]).
    pose proof (near_add W _ _ 1 _ _ _ _ _ _ Hc ltac:(lra) F N2 N1) as X. eapply (near_weaken W); [exact X|lia|lra|lra].
  Qed.

  (* stage products *)
  Lemma fmv M r c (C : nat -> nat -> R) x s i : mr M = r -> mc M = c ->
    (forall i j, (i < r)%nat -> (j < c)%nat -> val (mget O M i j) = C i j) -> (i < r)%nat ->
    fin (vg (mv O M (vseg O x s c)) i) -> (forall j, (j < c)%nat -> fin (vg x (s + j)%nat)) /\
    nr (c + 1) (2 * INR c) (times c (fun i j => Rabs (C i j)) (fun j => Rabs (val (vg x (s + j)%nat))) i)
       (vg (mv O M (vseg O x s c)) i) (times c C (fun j => val (vg x (s + j)%nat)) i).
  Proof.
    intros H1 H2 H3 Hi F. destruct (row_near W M (vseg O x s c) i r c H1 H2 (vseg_len _ _ _ _) Hi F) as (Fx & N).
    assert (SE : forall j, (j < c)%nat -> vg (vseg O x s c) j = vg x (s + j)%nat) by (intros j Hj; unfold vseg; rewrite (vget_tab O) by exact Hj; reflexivity).
    split; [intros j Hj; rewrite <- SE by exact Hj; apply Fx; exact Hj|]. unfold times in *.
    rewrite (rsum_ext c (fun j => C i j * _) (fun j => val (mget O M i j) * val (vg (vseg O x s c) j)))
      by (intros j Hj; rewrite H3, SE by assumption; reflexivity).
    rewrite (rsum_ext c (fun j => Rabs (C i j) * _) (fun j => Rabs (val (mget O M i j) * val (vg (vseg O x s c) j))))
      by (intros j Hj; rewrite H3, SE, Rabs_mult by assumption; reflexivity).
    exact N.
  Qed.
  Lemma fmtv M r c (C : nat -> nat -> R) x s i : mr M = r -> mc M = c ->
    (forall i j, (i < r)%nat -> (j < c)%nat -> val (mget O M i j) = C i j) -> (i < c)%nat ->
    fin (vg (mtv O M (vseg O x s r)) i) -> (forall j, (j < r)%nat -> fin (vg x (s + j)%nat)) /\
    nr (r + 1) (2 * INR r) (ttimes r (fun i j => Rabs (C i j)) (fun j => Rabs (val (vg x (s + j)%nat))) i)
       (vg (mtv O M (vseg O x s r)) i) (ttimes r C (fun j => val (vg x (s + j)%nat)) i).
  Proof.
    intros H1 H2 H3 Hi F. destruct (col_near W M (vseg O x s r) i r c H1 H2 (vseg_len _ _ _ _) Hi F) as (Fx & N).
    assert (SE : forall j, (j < r)%nat -> vg (vseg O x s r) j = vg x (s + j)%nat) by (intros j Hj; unfold vseg; rewrite (vget_tab O) by exact Hj; reflexivity).
    split; [intros j Hj; rewrite <- SE by exact Hj; apply Fx; exact Hj|]. unfold ttimes in *.
    rewrite (rsum_ext r (fun j => C j i * _) (fun j => val (mget O M j i) * val (vg (vseg O x s r) j)))
      by (intros j Hj; rewrite H3, SE by assumption; reflexivity).
    rewrite (rsum_ext r (fun j => Rabs (C j i) * _) (fun j => Rabs (val (mget O M j i) * val (vg (vseg O x s r) j))))
      by (intros j Hj; rewrite H3, SE, Rabs_mult by assumption; reflexivity).
    exact N.
  Qed.
End MpcFloat.
