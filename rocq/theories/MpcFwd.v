(* MpcData in rounded arithmetic without overflow: finite, moderate numbers go to finite numbers (the other
   direction of MpcFloat.v and MpcFloat2.v). *)
From Verif Require Export FwdFloat.
Local Open Scope R_scope.

Section MpcFwd.
  Context {T : Type} {O : Ops T} {fin : T -> Prop} {val : T -> R} {u eta big : R}.
  Hypothesis W : Rounded O fin val u eta.
  Hypothesis G : Ranged O fin val u eta big.
  Notation nr := (@near T val u eta).
  Notation safe := (@safe u eta big).
  Notation vv := (fun x i => val (vget O x i)).
  Notation vg := (vget O).
  Notation ab x := (fun j : nat => Rabs (x j)).

  (* y' is y plus inc, with kk more roundings, cc more underflows and terms of total size mg; finite where y
     is finite as long as the sizes stay in range *)
  Definition ffwd (y y' : vec T) (kk : nat) (cc : R) (inc mg : nat -> R) : Prop :=
    length y' = length y /\ 0 <= cc /\ (forall p, (p < length y)%nat -> 0 <= mg p) /\
    forall p, (p < length y)%nat -> fin (vg y p) -> forall k c m t, 0 <= c -> nr k c m (vg y p) t ->
      safe (k + kk) (c + cc) (m + mg p) -> fin (vg y' p) /\ nr (k + kk) (c + cc) (m + mg p) (vg y' p) (t + inc p).

  Lemma ffwd_trans y y1 y2 k1 c1 i1 m1 k2 c2 i2 m2 : ffwd y y1 k1 c1 i1 m1 -> ffwd y1 y2 k2 c2 i2 m2 ->
    ffwd y y2 (k1 + k2) (c1 + c2) (fun p => i1 p + i2 p) (fun p => m1 p + m2 p).
  Proof.
    intros (L1 & C1 & P1 & H1) (L2 & C2 & P2 & H2). split; [congruence|]. split; [lra|].
    assert (P2' : forall p, (p < length y)%nat -> 0 <= m2 p) by (intros p Hp; apply P2; lia).
    split; [intros p Hp; pose proof (P1 p Hp); pose proof (P2' p Hp); lra|].
    intros p Hp F k c m t Hc N S. pose proof (P1 p Hp) as Q1. pose proof (P2' p Hp) as Q2. pose proof (near_m _ _ _ _ _ N) as M.
    destruct (H1 p Hp F k c m t Hc N) as (F1 & N1).
    { eapply (safe_le W); [exact S|lia|lra|lra]. }
    destruct (H2 p ltac:(lia) F1 (k + k1)%nat (c + c1) (m + m1 p) (t + i1 p) ltac:(lra) N1) as (F2 & N2).
    { eapply (safe_le W); [exact S|lia|lra|lra]. }
    split; [exact F2|]. rewrite Nat.add_assoc, <- !Rplus_assoc. exact N2.
  Qed.
  Lemma ffwd_weaken y y1 k1 c1 i1 m1 k2 c2 i2 m2 : ffwd y y1 k1 c1 i1 m1 ->
    (k1 <= k2)%nat -> c1 <= c2 -> (forall p, (p < length y)%nat -> i1 p = i2 p /\ m1 p <= m2 p) -> ffwd y y1 k2 c2 i2 m2.
  Proof.
    intros (L1 & C1 & P1 & H1) Hk Hc H. split; [exact L1|]. split; [lra|].
    split; [intros p Hp; pose proof (P1 p Hp); destruct (H p Hp); lra|].
    intros p Hp F k c m t Hc0 N S. destruct (H p Hp) as (<- & Hm). pose proof (P1 p Hp) as Q1. pose proof (near_m _ _ _ _ _ N) as M.
    destruct (H1 p Hp F k c m t Hc0 N) as (F1 & N1); [eapply (safe_le W); [exact S|lia|lra|lra]|].
    split; [exact F1|]. eapply (near_weaken W); [exact N1|lia|lra|lra].
  Qed.

  Lemma fwloop (f : nat -> vec T -> res (vec T)) kk cc (inc mg : nat -> nat -> R) L n : forall i y,
    length y = L -> 0 <= cc ->
    (forall j y, (i <= j < i + n)%nat -> length y = L -> exists y', f j y = Ok y' /\ ffwd y y' kk cc (inc j) (mg j)) ->
    exists y', for_from n i f y = Ok y' /\
      ffwd y y' (n * kk) (INR n * cc) (fun p => rsum n (fun j => inc (i + j)%nat p)) (fun p => rsum n (fun j => mg (i + j)%nat p)).
  Proof.
    induction n as [|n IH]; intros i y Ly Hc H; cbn [for_from].
    - exists y. split; [reflexivity|]. split; [reflexivity|]. split; [cbn; lra|]. split; [intros; cbn; lra|].
      intros p Hp F k c m t Hc0 N _. cbn [Nat.mul INR rsum]. rewrite Nat.add_0_r, Rmult_0_l, !Rplus_0_r. split; assumption.
    - destruct (H i y) as (y1 & E1 & P1); [lia|exact Ly|]. rewrite E1. cbn [rbind].
      destruct (IH (S i) y1) as (y2 & E2 & P2); [destruct P1; congruence|exact Hc|intros j z Hj; apply H; lia|].
      exists y2. split; [exact E2|]. eapply ffwd_weaken; [eapply ffwd_trans; [exact P1|exact P2]|cbn; lia| |].
      + rewrite S_INR. lra.
      + intros p Hp. cbn beta. rewrite !rsum_first. rewrite Nat.add_0_r. split; [|apply Req_le]; f_equal; apply rsum_ext; intros j _; f_equal; lia.
  Qed.

  (* the segment updates *)
  Lemma fwseg y s n f kk cc g mg : 0 <= cc -> (forall i, (i < n)%nat -> 0 <= mg i) ->
    (forall i, (i < n)%nat -> fin (vg y (s + i)%nat) -> 
       forall k c m t, 0 <= c -> nr k c m (vg y (s + i)%nat) t -> safe (k + kk) (c + cc) (m + mg i) ->
         fin (f i) /\ nr (k + kk) (c + cc) (m + mg i) (f i) (t + g i)) ->
    ffwd y (seg_upd O y s n f) kk cc (seg s n g) (seg s n mg).
  Proof.
    intros Hc Hm H. unfold seg_upd. split; [apply tab_length|]. split; [exact Hc|]. split.
    { intros p Hp. unfold seg. destruct (Nat.leb_spec s p) as [L1|L1]; destruct (Nat.ltb_spec p (s + n)) as [L2|L2]; cbn [andb]; try lra.
      apply Hm. lia. }
    intros p Hp F k c m t Hc0 N. rewrite (vget_tab O) by exact Hp. unfold seg.
    destruct (Nat.leb_spec s p) as [L1|L1]; destruct (Nat.ltb_spec p (s + n)) as [L2|L2]; cbn [andb] in *.
    1: { intro S. apply (H (p - s)%nat); try lia; replace (s + (p - s))%nat with p by lia; assumption. }
    all: intros _; split; [exact F|]; rewrite !Rplus_0_r; eapply (near_weaken W); [exact N|lia|lra|lra].
  Qed.

  (* what a stage product is: finite when its terms are in range *)
  Definition fprod (n : nat) (p : T) (m t : R) : Prop := 0 <= m /\ (safe (n + 1) (2 * INR n) m -> fin p /\ nr (n + 1) (2 * INR n) m p t).

  Lemma fwacc2 s n p1 p2 y n1 n2 sz t1 t2 m1 m2 : (n1 + n2 + 4 <= sz)%nat ->
    (forall i, (i < n)%nat -> fprod n1 (vg p1 i) (m1 i) (t1 i)) -> (forall i, (i < n)%nat -> fprod n2 (vg p2 i) (m2 i) (t2 i)) ->
    ffwd y (acc2 O (o_one O) s n p1 p2 y) sz (2 * INR sz) (seg s n (fun i => t1 i + t2 i)) (seg s n (fun i => m1 i + m2 i)).
  Proof.
    intros Hs H1 H2. pose proof (pos_INR n1) as I1. pose proof (pos_INR n2) as I2. pose proof (pos_INR sz) as I3.
    assert (IS : 2 * INR n1 + 2 * INR n2 + 8 <= 2 * INR sz) by (apply le_INR in Hs; rewrite !plus_INR in Hs; cbn [INR] in Hs; lra).
    unfold acc2. rewrite (eqb_11 W). apply fwseg; [lra|intros i Hi; destruct (H1 i Hi), (H2 i Hi); lra|].
    intros i Hi Fy k c m t Hc N S. destruct (H1 i Hi) as (M1 & P1). destruct (H2 i Hi) as (M2 & P2). pose proof (near_m _ _ _ _ _ N) as M0.
    destruct P1 as (F1 & N1); [eapply (safe_le W); [exact S|lia|lra|lra]|].
    destruct P2 as (F2 & N2); [eapply (safe_le W); [exact S|lia|lra|lra]|].
    assert (N1' : nr (n1 + n2 + 1) (2 * INR n1) (m1 i) (vg p1 i) (t1 i)) by (eapply (near_weaken W); [exact N1|lia|lra|lra]).
    assert (N2' : nr (n1 + n2 + 1) (2 * INR n2) (m2 i) (vg p2 i) (t2 i)) by (eapply (near_weaken W); [exact N2|lia|lra|lra]).
    assert (FS : fin (o_add O (vg p1 i) (vg p2 i))) by (apply (fadd W G _ _ _ _ _ _ _ _ _ N1' N2'); auto; eapply (safe_le W); [exact S|lia|lra|lra]).
    assert (NS : nr (n1 + n2 + 1 + 1) (2 * INR n1 + 2 * INR n2 + 1) (m1 i + m2 i) (o_add O (vg p1 i) (vg p2 i)) (t1 i + t2 i))
      by (apply (near_add W); [lra|lra|exact FS|exact N1'|exact N2']).
    assert (N0 : nr (k + n1 + n2 + 2) c m (vg y (s + i)%nat) t) by (eapply (near_weaken W); [exact N|lia|lra|lra]).
    assert (NT : nr (k + n1 + n2 + 2) (2 * INR n1 + 2 * INR n2 + 1) (m1 i + m2 i) (o_add O (vg p1 i) (vg p2 i)) (t1 i + t2 i))
      by (eapply (near_weaken W); [exact NS|lia|lra|lra]).
    assert (F : fin (o_add O (vg y (s + i)%nat) (o_add O (vg p1 i) (vg p2 i)))) by (apply (fadd W G _ _ _ _ _ _ _ _ _ N0 NT); auto; eapply (safe_le W); [exact S|lia|lra|lra]).
    split; [exact F|].
    assert (X : nr (k + n1 + n2 + 2 + 1) (c + (2 * INR n1 + 2 * INR n2 + 1) + 1) (m + (m1 i + m2 i)) (o_add O (vg y (s + i)%nat) (o_add O (vg p1 i) (vg p2 i))) (t + (t1 i + t2 i)))
      by (apply (near_add W); [lra|lra|exact F|exact N0|exact NT]).
    eapply (near_weaken W); [exact X|lia|lra|lra].
  Qed.
  Lemma fwacc1 s n p1 y n1 sz t1 m1 : (n1 + 4 <= sz)%nat -> (forall i, (i < n)%nat -> fprod n1 (vg p1 i) (m1 i) (t1 i)) ->
    ffwd y (acc1 O (o_one O) s n p1 y) sz (2 * INR sz) (seg s n t1) (seg s n m1).
  Proof.
    intros Hs H1. pose proof (pos_INR n1) as I1. pose proof (pos_INR sz) as I3.
    assert (IS : 2 * INR n1 + 8 <= 2 * INR sz) by (apply le_INR in Hs; rewrite !plus_INR in Hs; cbn [INR] in Hs; lra).
    unfold acc1. rewrite (eqb_11 W). apply fwseg; [lra|intros i Hi; destruct (H1 i Hi); lra|].
    intros i Hi Fy k c m t Hc N S. destruct (H1 i Hi) as (M1 & P1). pose proof (near_m _ _ _ _ _ N) as M0.
    destruct P1 as (F1 & N1); [eapply (safe_le W); [exact S|lia|lra|lra]|].
    assert (N0 : nr (k + n1 + 2) c m (vg y (s + i)%nat) t) by (eapply (near_weaken W); [exact N|lia|lra|lra]).
    assert (NT : nr (k + n1 + 2) (2 * INR n1) (m1 i) (vg p1 i) (t1 i)) by (eapply (near_weaken W); [exact N1|lia|lra|lra]).
    assert (F : fin (o_add O (vg y (s + i)%nat) (vg p1 i))) by (apply (fadd W G _ _ _ _ _ _ _ _ _ N0 NT); auto; eapply (safe_le W); [exact S|lia|lra|lra]).
    split; [exact F|].
    assert (X : nr (k + n1 + 2 + 1) (c + (2 * INR n1) + 1) (m + m1 i) (o_add O (vg y (s + i)%nat) (vg p1 i)) (t + t1 i))
      by (apply (near_add W); [lra|lra|exact F|exact N0|exact NT]).
    eapply (near_weaken W); [exact X|lia|lra|lra].
  Qed.
  (* minus a plain vector *)
  Lemma fwminus s n f x sz y : (4 <= sz)%nat -> (forall i, (i < n)%nat -> fin (vg x i)) ->
    (forall i, (i < n)%nat -> f i = o_sub O (vg y (s + i)%nat) (vg x i)) ->
    ffwd y (seg_upd O y s n f) sz (2 * INR sz) (seg s n (fun i => - vv x i)) (seg s n (ab (vv x))).
  Proof.
    intros Hs Fx Hf. pose proof (pos_INR sz) as I3. assert (IS : 8 <= 2 * INR sz) by (apply le_INR in Hs; cbn [INR] in Hs; lra).
    apply fwseg; [lra|intros; apply Rabs_pos|]. intros i Hi Fy k c m t Hc N S. rewrite Hf by exact Hi. pose proof (near_m _ _ _ _ _ N) as M0.
    pose proof (Rabs_pos (val (vg x i))) as M1.
    assert (NX : nr k 0 (Rabs (val (vg x i))) (vg x i) (val (vg x i))) by (eapply (near_weaken W); [apply near_exact|lia|lra|lra]).
    assert (F : fin (o_sub O (vg y (s + i)%nat) (vg x i))) by (apply (fsub W G _ _ _ _ _ _ _ _ _ N NX); auto; eapply (safe_le W); [exact S|lia|lra|lra]).
    split; [exact F|].
    assert (X : nr (k + 1) (c + 0 + 1) (m + Rabs (val (vg x i))) (o_sub O (vg y (s + i)%nat) (vg x i)) (t - val (vg x i)))
      by (apply (near_sub W); [lra|lra|exact F|exact N|exact NX]).
    eapply (near_weaken W); [exact X|lia|lra|lra].
  Qed.
  Lemma fwacc_vec a sg s n x sz y : (4 <= sz)%nat -> fin a -> val a = sg -> Rabs sg = 1 -> (forall i, (i < n)%nat -> fin (vg x i)) ->
    ffwd y (acc_vec O a s n x y) sz (2 * INR sz) (seg s n (fun i => sg * val (vg x i))) (seg s n (ab (vv x))).
  Proof.
    intros Hs Fa Va Hsg Fx. pose proof (pos_INR sz) as I3. assert (IS : 8 <= 2 * INR sz) by (apply le_INR in Hs; cbn [INR] in Hs; lra).
    unfold acc_vec. apply fwseg; [lra|intros; apply Rabs_pos|]. intros i Hi Fy k c m t Hc N S. pose proof (near_m _ _ _ _ _ N) as M0.
    pose proof (Rabs_pos (val (vg x i))) as M1.
    assert (Fm : fin (o_mul O a (vg x i))).
    { apply (funit W G 0 0 (Rabs (vv x i)) _ _ (vv x i) sg); auto; [apply near_exact|]. eapply (safe_le W); [exact S|lia|lra|lra]. }
    assert (N1 : nr (k + 1) 1 (Rabs (vv x i)) (o_mul O a (vg x i)) (sg * vv x i)).
    { pose proof (near_unit W 0 0 (Rabs (vv x i)) a (vg x i) (vv x i) sg (Rle_refl 0) Hsg Va Fm (near_exact _)) as X.
      eapply (near_weaken W); [exact X|lia|lra|lra]. }
    assert (N2 : nr (k + 1) c m (vg y (s + i)%nat) t) by (eapply (near_weaken W); [exact N|lia|lra|lra]).
    assert (F : fin (o_add O (vg y (s + i)%nat) (o_mul O a (vg x i)))) by (apply (fadd W G _ _ _ _ _ _ _ _ _ N2 N1); auto; eapply (safe_le W); [exact S|lia|lra|lra]).
    split; [exact F|]. pose proof (near_add W _ _ 1 _ _ _ _ _ _ Hc ltac:(lra) F N2 N1) as X. eapply (near_weaken W); [exact X|lia|lra|lra].
  Qed.

  (* stage products *)
  Lemma SEG x s c j : (j < c)%nat -> vg (vseg O x s c) j = vg x (s + j)%nat.
  Proof. intro Hj. unfold vseg. rewrite (vget_tab O) by exact Hj. reflexivity. Qed.
  Lemma fwmv M r c (C : nat -> nat -> R) x s i : mr M = r -> mc M = c -> mfin (O:=O) (fin:=fin) M r c ->
    (forall i j, (i < r)%nat -> (j < c)%nat -> val (mget O M i j) = C i j) -> (i < r)%nat ->
    (forall j, (j < c)%nat -> fin (vg x (s + j)%nat)) ->
    fprod c (vg (mv O M (vseg O x s c)) i) (times c (fun i j => Rabs (C i j)) (fun j => Rabs (val (vg x (s + j)%nat))) i)
       (times c C (fun j => val (vg x (s + j)%nat)) i).
  Proof.
    intros H1 H2 FM H3 Hi Fx. unfold times.
    rewrite (rsum_ext c (fun j => C i j * _) (fun j => val (mget O M i j) * val (vg (vseg O x s c) j)))
      by (intros j Hj; rewrite H3, SEG by assumption; reflexivity).
    rewrite (rsum_ext c (fun j => Rabs (C i j) * _) (fun j => Rabs (val (mget O M i j) * val (vg (vseg O x s c) j))))
      by (intros j Hj; rewrite H3, SEG, Rabs_mult by assumption; reflexivity).
    split; [apply rsum_abs_pos|]. intro S.
    assert (F : fin (vg (mv O M (vseg O x s c)) i)).
    { apply (row_fwd G M _ i r c H1 H2 (vseg_len _ _ _ _) Hi FM); [|exact S]. intros j Hj. rewrite SEG by exact Hj. apply Fx. exact Hj. }
    split; [exact F|]. destruct (row_near W M (vseg O x s c) i r c H1 H2 (vseg_len _ _ _ _) Hi F) as (_ & N). exact N.
  Qed.
  Lemma fwmtv M r c (C : nat -> nat -> R) x s i : mr M = r -> mc M = c -> mfin (O:=O) (fin:=fin) M r c ->
    (forall i j, (i < r)%nat -> (j < c)%nat -> val (mget O M i j) = C i j) -> (i < c)%nat ->
    (forall j, (j < r)%nat -> fin (vg x (s + j)%nat)) ->
    fprod r (vg (mtv O M (vseg O x s r)) i) (ttimes r (fun i j => Rabs (C i j)) (fun j => Rabs (val (vg x (s + j)%nat))) i)
       (ttimes r C (fun j => val (vg x (s + j)%nat)) i).
  Proof.
    intros H1 H2 FM H3 Hi Fx. unfold ttimes.
    rewrite (rsum_ext r (fun j => C j i * _) (fun j => val (mget O M j i) * val (vg (vseg O x s r) j)))
      by (intros j Hj; rewrite H3, SEG by assumption; reflexivity).
    rewrite (rsum_ext r (fun j => Rabs (C j i) * _) (fun j => Rabs (val (mget O M j i) * val (vg (vseg O x s r) j))))
      by (intros j Hj; rewrite H3, SEG, Rabs_mult by assumption; reflexivity).
    split; [apply rsum_abs_pos|]. intro S.
    assert (F : fin (vg (mtv O M (vseg O x s r)) i)).
    { apply (col_fwd G M _ i r c H1 H2 (vseg_len _ _ _ _) Hi FM); [|exact S]. intros j Hj. rewrite SEG by exact Hj. apply Fx. exact Hj. }
    split; [exact F|]. destruct (col_near W M (vseg O x s r) i r c H1 H2 (vseg_len _ _ _ _) Hi F) as (_ & N). exact N.
  Qed.
End MpcFwd.
