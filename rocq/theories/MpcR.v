(* Over the reals an MpcData object behaves as the explicit QP of its optimal control problem. *)
From Verif Require Export RComp OCPFacts Api.
Local Open Scope R_scope.

(* an increment on the segment [s, s+n) *)
Definition seg (s n : nat) (g : nat -> R) (p : nat) : R :=
  if ((s <=? p) && (p <? s + n))%nat then g (p - s)%nat else 0.
Lemma seg_in s n g i : (i < n)%nat -> seg s n g (s + i) = g i.
Proof.
  intro H. unfold seg. replace (s <=? s + i)%nat with true by (symmetry; apply Nat.leb_le; lia).
  replace (s + i <? s + n)%nat with true by (symmetry; apply Nat.ltb_lt; lia). cbn [andb]. f_equal. lia.
Qed.
Lemma seg_out s n g p : (p < s \/ s + n <= p)%nat -> seg s n g p = 0.
Proof.
  intro H. unfold seg. destruct H as [H|H].
  - replace (s <=? p)%nat with false by (symmetry; apply Nat.leb_gt; lia). reflexivity.
  - replace (p <? s + n)%nat with false by (symmetry; apply Nat.ltb_ge; lia). rewrite andb_false_r. reflexivity.
Qed.
Lemma seg_ext s n g g' p : (forall i, (i < n)%nat -> g i = g' i) -> seg s n g p = seg s n g' p.
Proof.
  intro H. unfold seg. destruct (Nat.leb_spec s p); destruct (Nat.ltb_spec p (s + n)); cbn; auto.
  apply H. lia.
Qed.

(* [y'] is [y] plus [inc] *)
Definition plus_inc (y y' : vec R) (inc : nat -> R) : Prop :=
  length y' = length y /\ forall p, (p < length y)%nat -> rg y' p = rg y p + inc p.

Lemma inc_trans y y1 y2 f g : plus_inc y y1 f -> plus_inc y1 y2 g -> plus_inc y y2 (fun p => f p + g p).
Proof.
  intros [L1 V1] [L2 V2]. split; [congruence|]. intros p Hp. rewrite V2 by lia. rewrite V1 by lia. lra.
Qed.
Lemma inc_ext y y1 f g : plus_inc y y1 f -> (forall p, (p < length y)%nat -> f p = g p) -> plus_inc y y1 g.
Proof. intros [L V] H. split; [exact L|]. intros p Hp. rewrite V, H by exact Hp. reflexivity. Qed.

Lemma seg_upd_R y s n g :
  plus_inc y (seg_upd Rops y s n (fun i => rg y (s + i)%nat + g i)) (seg s n g).
Proof.
  unfold seg_upd. split; [apply tab_length|]. intros p Hp. rewrite (vget_tab Rops) by exact Hp.
  unfold seg. destruct (Nat.leb_spec s p); destruct (Nat.ltb_spec p (s + n)); cbn [andb]; try lra.
  replace (s + (p - s))%nat with p by lia. reflexivity.
Qed.
Lemma seg_upd_gen y s n f g : (forall i, (i < n)%nat -> f i = rg y (s + i)%nat + g i) ->
  plus_inc y (seg_upd Rops y s n f) (seg s n g).
Proof.
  intro H. unfold seg_upd. split; [apply tab_length|]. intros p Hp. rewrite (vget_tab Rops) by exact Hp.
  unfold seg. destruct (Nat.leb_spec s p); destruct (Nat.ltb_spec p (s + n)); cbn [andb]; try lra.
  rewrite H by lia. replace (s + (p - s))%nat with p by lia. reflexivity.
Qed.

Lemma acc2_R a s n p1 p2 y :
  plus_inc y (acc2 Rops a s n p1 p2 y) (seg s n (fun i => a * (rg p1 i + rg p2 i))).
Proof.
  unfold acc2. cbn [o_eqb o_one o_add o_sub o_mul Rops]. unfold o_mone. cbn [o_opp o_one Rops].
  destruct (Reqb a 1) eqn:E1; [|destruct (Reqb a (-(1))) eqn:E2].
  - apply Reqb_true in E1. apply seg_upd_gen. intros i Hi. subst a. lra.
  - apply Reqb_true in E2. apply seg_upd_gen. intros i Hi. subst a. lra.
  - eapply inc_ext.
    + eapply inc_trans; apply seg_upd_R.
    + intros p Hp. unfold seg. destruct (_ && _); lra.
Qed.
Lemma acc1_R a s n p1 y :
  plus_inc y (acc1 Rops a s n p1 y) (seg s n (fun i => a * rg p1 i)).
Proof.
  unfold acc1. cbn [o_eqb o_one o_add o_sub o_mul Rops]. unfold o_mone. cbn [o_opp o_one Rops].
  destruct (Reqb a 1) eqn:E1; [|destruct (Reqb a (-(1))) eqn:E2].
  - apply Reqb_true in E1. apply seg_upd_gen. intros i Hi. subst a. lra.
  - apply Reqb_true in E2. apply seg_upd_gen. intros i Hi. subst a. lra.
  - apply seg_upd_R.
Qed.
Lemma acc_vec_R a s n w y :
  plus_inc y (acc_vec Rops a s n w y) (seg s n (fun i => a * rg w i)).
Proof. apply seg_upd_R. Qed.

Lemma prescale_R b y : length (prescale Rops b y) = length y /\
  forall p, (p < length y)%nat -> rg (prescale Rops b y) p = b * rg y p.
Proof.
  split; [apply prescale_len|]. intros p Hp. unfold prescale. cbn [o_eqb o_zero o_one Rops].
  destruct (Reqb b 0) eqn:E0; [|destruct (Reqb b 1) eqn:E1]; cbn [negb].
  - apply Reqb_true in E0. rewrite rg_const by exact Hp. subst b. lra.
  - apply Reqb_true in E1. subst b. lra.
  - unfold vscale. rewrite (vget_tab Rops) by exact Hp. cbn [o_mul Rops]. lra.
Qed.

(* a loop of additive updates *)
Lemma loop_R (f : nat -> vec R -> res (vec R)) (inc : nat -> nat -> R) L n : forall i y,
  length y = L ->
  (forall j y, (i <= j < i + n)%nat -> length y = L -> exists y', f j y = Ok y' /\ plus_inc y y' (inc j)) ->
  exists y', for_from n i f y = Ok y' /\ plus_inc y y' (fun p => rsum n (fun j => inc (i + j)%nat p)).
Proof.
  induction n as [|n IH]; intros i y Ly H; cbn [for_from].
  - exists y. split; [reflexivity|]. split; [reflexivity|]. intros. cbn. lra.
  - destruct (H i y) as (y1 & E1 & P1); [lia|exact Ly|]. rewrite E1. cbn [rbind].
    destruct (IH (S i) y1) as (y2 & E2 & P2).
    + destruct P1. congruence.
    + intros j z Hj. apply H. lia.
    + exists y2. split; [exact E2|]. eapply inc_ext; [eapply inc_trans; eassumption|].
      intros p Hp. cbn beta. rewrite rsum_first. f_equal; [f_equal; lia|].
      apply rsum_ext. intros k Hk. f_equal. lia.
Qed.

Lemma blk_out k kk w r : (r < w)%nat -> kk <> k -> (k * w + r < kk * w \/ kk * w + w <= k * w + r)%nat.
Proof.
  intros H E. destruct (Nat.lt_ge_cases kk k) as [L|L].
  - right. assert (S kk * w <= k * w)%nat by (apply Nat.mul_le_mono_r; lia). cbn in *. lia.
  - left. assert (S k * w <= kk * w)%nat by (apply Nat.mul_le_mono_r; lia). cbn in *. lia.
Qed.

(* the OCP described by the matrices and vectors of the sequences *)
Record describes (d : mpc_data R) (o : OCP) : Prop := {
  ds_N : md_N d = oN o; ds_nx : md_nx d = onx o; ds_nu : md_nu d = onu o; ds_nc : md_nc d = onc o;
  ds_Q : forall k i j, (k < oN o + 1)%nat -> (i < onx o)%nat -> (j < onx o)%nat -> rm (stg (m_Q (md_m d)) k) i j = cQ o k i j;
  ds_R : forall k i j, (k < oN o + 1)%nat -> (i < onu o)%nat -> (j < onu o)%nat -> rm (stg (m_R (md_m d)) k) i j = cR o k i j;
  ds_S : forall k i j, (k < oN o + 1)%nat -> (i < onu o)%nat -> (j < onx o)%nat -> rm (stg (m_S (md_m d)) k) i j = cS o k i j;
  ds_q : forall k i, (k < oN o + 1)%nat -> (i < onx o)%nat -> rm (stg (m_q (md_m d)) k) i 0 = cq o k i;
  ds_r : forall k i, (k < oN o + 1)%nat -> (i < onu o)%nat -> rm (stg (m_r (md_m d)) k) i 0 = cr o k i;
  ds_A : forall k i j, (k < oN o)%nat -> (i < onx o)%nat -> (j < onx o)%nat -> rm (stg (m_A (md_m d)) k) i j = oA o k i j;
  ds_B : forall k i j, (k < oN o)%nat -> (i < onx o)%nat -> (j < onu o)%nat -> rm (stg (m_B (md_m d)) k) i j = oB o k i j;
  ds_c : forall k i, (k < oN o)%nat -> (i < onx o)%nat -> rm (stg (m_c (md_m d)) k) i 0 = oc o k i;
  ds_E : forall k i j, (k < oN o + 1)%nat -> (i < onc o)%nat -> (j < onx o)%nat -> rm (stg (m_E (md_m d)) k) i j = oE o k i j;
  ds_L : forall k i j, (k < oN o + 1)%nat -> (i < onc o)%nat -> (j < onu o)%nat -> rm (stg (m_L (md_m d)) k) i j = oL o k i j;
  ds_d : forall k i, (k < oN o + 1)%nat -> (i < onc o)%nat -> rm (stg (m_d (md_m d)) k) i 0 = od o k i;
  ds_x0 : forall i, (i < onx o)%nat -> rg (m_x0 (md_m d)) i = ox0 o i }.

Section MpcR.
  Variable d : mpc_data R.
  Variable o : OCP.
  Notation N := (oN o). Notation nx := (onx o). Notation nu := (onu o). Notation nc := (onc o).
  Notation w := (nx + nu)%nat. Notation P := (ocp_qp o).
  Hypothesis Hd : mpc_ok d N nx nu nc.
  Hypothesis Hs : describes d o.

  Ltac stage H :=
    let E := fresh "E" in let R := fresh "R" in let C := fresh "C" in
    match type of H with sok ?s ?n ?r ?c =>
      match goal with |- context [at_ s ?k] =>
        destruct (sok_stg s n r c k H) as (E & R & C); [lia|];
        rewrite E; cbn [rbind]
      end end.
  Ltac shapes := unfold shape;
    repeat match goal with H : mr ?M = _ |- context [mr ?M] => rewrite H end;
    repeat match goal with H : mc ?M = _ |- context [mc ?M] => rewrite H end;
    rewrite ?Nat.eqb_refl; cbn [andb ub_unless rbind].

  Lemma seg_len (x : vec R) s n : length (vseg Rops x s n) = n.
  Proof. autorewrite with vlen. reflexivity. Qed.
  Lemma seg_entry (x : vec R) s n i : (i < n)%nat -> rg (vseg Rops x s n) i = rg x (s + i)%nat.
  Proof. intro H. unfold vseg. rewrite (vget_tab Rops) by exact H. reflexivity. Qed.

  (* stage products in terms of the OCP's matrices *)
  Lemma mv_stage M r c (C : nat -> nat -> R) x s i : mr M = r -> mc M = c ->
    (forall i j, (i < r)%nat -> (j < c)%nat -> rm M i j = C i j) -> (i < r)%nat ->
    rg (mv Rops M (vseg Rops x s c)) i = times c C (fun j => rg x (s + j)%nat) i.
  Proof.
    intros H1 H2 H3 Hi. rewrite mv_entry by (rewrite ?seg_len; congruence). rewrite H2. unfold times.
    apply rsum_ext. intros j Hj. rewrite H3, seg_entry by assumption. reflexivity.
  Qed.
  Lemma mtv_stage M r c (C : nat -> nat -> R) x s j : mr M = r -> mc M = c ->
    (forall i j, (i < r)%nat -> (j < c)%nat -> rm M i j = C i j) -> (j < c)%nat ->
    rg (mtv Rops M (vseg Rops x s r)) j = ttimes r C (fun i => rg x (s + i)%nat) j.
  Proof.
    intros H1 H2 H3 Hi. rewrite mtv_entry by (rewrite ?seg_len; congruence). rewrite H1. unfold ttimes.
    apply rsum_ext. intros i' Hj. rewrite H3, seg_entry by assumption. reflexivity.
  Qed.
  Lemma mcol_stage M r (c : nat -> R) i : mr M = r -> (forall i, (i < r)%nat -> rm M i 0 = c i) -> (i < r)%nat ->
    rg (mcol Rops M 0) i = c i.
  Proof. intros H1 H2 Hi. unfold mcol. rewrite (vget_tab Rops) by congruence. auto. Qed.

  Ltac setup :=
    destruct Hd as [EN Ex Eu Ec Ez El Ev HQ HR HS Hq Hr HA HB Hc HE HL HD Hx0];
    destruct Hs as [_ _ _ _ SQ SR SS Sq Sr SA SB Sc SE SL SD Sx0];
    rewrite ?EN, ?Ex, ?Eu, ?Ec; unfold size_chk, size_chk1;
    repeat match goal with H : length ?a = _ |- context [length ?a =? _] => rewrite H end;
    rewrite ?Ez, ?El, ?Ev, ?Hx0, ?Nat.eqb_refl; cbn [andb throw_unless ub_unless rbind].

  Lemma mpcH x a b y : length x = n_z P -> length y = n_z P -> exists r,
    mpc_gemvH Rops d x a b y = Ok r /\ length r = n_z P /\
    forall i, (i < n_z P)%nat -> rg r i = a * times (n_z P) (cH P) (rg x) i + b * rg y i.
  Proof.
    intros Lx Ly. unfold mpc_gemvH. cbn [n_z ocp_qp] in Lx, Ly. setup.
    destruct (prescale_R b y) as [L0 V0].
    set (inc := fun k p => seg (k * w) nx (fun i => a * (times nx (cQ o k) (xs o (rg x) k) i + ttimes nu (cS o k) (us o (rg x) k) i)) p
                         + seg (k * w + nx) nu (fun i => a * (times nx (cS o k) (xs o (rg x) k) i + times nu (cR o k) (us o (rg x) k) i)) p).
    match goal with |- context [for_n _ ?f _] => destruct (loop_R f inc ((N + 1) * w) (N + 1) 0 (prescale Rops b y)) as (r & Er & Lr & Vr) end.
    - congruence.
    - intros k z Hk Lz. stage HQ. stage HS. stage HR. shapes. eexists. split; [reflexivity|].
      eapply inc_ext; [eapply inc_trans; apply acc2_R|]. intros p Hp. unfold inc. f_equal; apply seg_ext; intros i Hi.
      + rewrite (mv_stage _ nx nx (cQ o k)), (mtv_stage _ nu nx (cS o k)); auto; intros; [apply SS|apply SQ]; assumption || lia.
      + rewrite (mv_stage _ nu nx (cS o k)), (mv_stage _ nu nu (cR o k)); auto; intros; [apply SR|apply SS]; assumption || lia.
    - exists r. split; [exact Er|]. split; [cbn [n_z ocp_qp]; congruence|].
      cbn [n_z ocp_qp]. change ((N + 1) * w)%nat with (n_z P).
      apply (flat_xu o (fun p => rg r p = a * times (n_z P) (cH P) (rg x) p + b * rg y p)).
      + intros k i Hk Hi. assert (Lt : (k * w + i < (N + 1) * w)%nat) by nia.
        rewrite Vr by lia. rewrite V0 by lia. rewrite H_x by assumption.
        cbn beta. rewrite (rsum_single (N + 1) k).
        * cbn [Nat.add]. unfold inc. rewrite seg_in by exact Hi. rewrite seg_out by lia. lra.
        * exact Hk.
        * intros kk Hkk Ek. cbn [Nat.add]. destruct (blk_out k kk w i) as [O1|O1]; [lia|exact Ek| |];
            unfold inc; rewrite !seg_out by lia; lra.
      + intros k i Hk Hi. assert (Lt : (k * w + nx + i < (N + 1) * w)%nat) by nia.
        rewrite Vr by lia. rewrite V0 by lia. rewrite H_u by assumption.
        cbn beta. rewrite (rsum_single (N + 1) k).
        * cbn [Nat.add]. unfold inc. rewrite seg_in by exact Hi. rewrite seg_out by lia. lra.
        * exact Hk.
        * intros kk Hkk Ek. cbn [Nat.add]. destruct (blk_out k kk w (nx + i)) as [O1|O1]; [lia|exact Ek| |];
            unfold inc; rewrite !seg_out by lia; lra.
  Qed.

  Lemma mpcA x a b y : length x = n_z P -> length y = n_v P -> exists r,
    mpc_gemvA Rops d x a b y = Ok r /\ length r = n_v P /\
    forall i, (i < n_v P)%nat -> rg r i = a * times (n_z P) (cA P) (rg x) i + b * rg y i.
  Proof.
    intros Lx Ly. unfold mpc_gemvA. cbn [n_z n_v ocp_qp] in Lx, Ly. setup.
    destruct (prescale_R b y) as [L0 V0].
    set (inc := fun k p => seg (k * nc) nc (fun i => a * (times nx (oE o k) (xs o (rg x) k) i + times nu (oL o k) (us o (rg x) k) i)) p).
    match goal with |- context [for_n _ ?f _] => destruct (loop_R f inc ((N + 1) * nc) (N + 1) 0 (prescale Rops b y)) as (r & Er & Lr & Vr) end.
    - congruence.
    - intros k z Hk Lz. stage HE. stage HL. shapes. eexists. split; [reflexivity|].
      eapply inc_ext; [apply acc2_R|]. intros p Hp. unfold inc. apply seg_ext; intros i Hi.
      rewrite (mv_stage _ nc nx (oE o k)), (mv_stage _ nc nu (oL o k)); auto; intros; [apply SL|apply SE]; assumption || lia.
    - exists r. split; [exact Er|]. split; [cbn [n_v ocp_qp]; congruence|].
      cbn [n_v ocp_qp]. apply flat. intros k i Hk Hi.
      assert (Lt : (k * nc + i < (N + 1) * nc)%nat) by nia.
      rewrite Vr by lia. rewrite V0 by lia. rewrite A_row by assumption.
      cbn beta. rewrite (rsum_single (N + 1) k).
      * cbn [Nat.add]. unfold inc. rewrite seg_in by exact Hi. lra.
      * exact Hk.
      * intros kk Hkk Ek. cbn [Nat.add]. destruct (blk_out k kk nc i) as [O1|O1]; [lia|exact Ek| |];
          unfold inc; rewrite !seg_out by lia; lra.
  Qed.

  Lemma mpcAT x a b y : length x = n_v P -> length y = n_z P -> exists r,
    mpc_gemvAT Rops d x a b y = Ok r /\ length r = n_z P /\
    forall i, (i < n_z P)%nat -> rg r i = a * ttimes (n_v P) (cA P) (rg x) i + b * rg y i.
  Proof.
    intros Lx Ly. unfold mpc_gemvAT. cbn [n_z n_v ocp_qp] in Lx, Ly. setup.
    destruct (prescale_R b y) as [L0 V0].
    set (inc := fun k p => seg (k * w) nx (fun i => a * ttimes nc (oE o k) (vs o (rg x) k) i) p
                         + seg (k * w + nx) nu (fun i => a * ttimes nc (oL o k) (vs o (rg x) k) i) p).
    match goal with |- context [for_n _ ?f _] => destruct (loop_R f inc ((N + 1) * w) (N + 1) 0 (prescale Rops b y)) as (r & Er & Lr & Vr) end.
    - congruence.
    - intros k z Hk Lz. stage HE. stage HL. shapes. eexists. split; [reflexivity|].
      eapply inc_ext; [eapply inc_trans; apply acc1_R|]. intros p Hp. unfold inc. f_equal; apply seg_ext; intros i Hi.
      + rewrite (mtv_stage _ nc nx (oE o k)); auto; intros; apply SE; assumption || lia.
      + rewrite (mtv_stage _ nc nu (oL o k)); auto; intros; apply SL; assumption || lia.
    - exists r. split; [exact Er|]. split; [cbn [n_z ocp_qp]; congruence|].
      cbn [n_z ocp_qp].
      apply (flat_xu o (fun p => rg r p = a * ttimes (n_v P) (cA P) (rg x) p + b * rg y p)).
      + intros k i Hk Hi. assert (Lt : (k * w + i < (N + 1) * w)%nat) by nia.
        rewrite Vr by lia. rewrite V0 by lia. rewrite AT_x by assumption.
        cbn beta. rewrite (rsum_single (N + 1) k).
        * cbn [Nat.add]. unfold inc. rewrite seg_in by exact Hi. rewrite seg_out by lia. lra.
        * exact Hk.
        * intros kk Hkk Ek. cbn [Nat.add]. destruct (blk_out k kk w i) as [O1|O1]; [lia|exact Ek| |];
            unfold inc; rewrite !seg_out by lia; lra.
      + intros k i Hk Hi. assert (Lt : (k * w + nx + i < (N + 1) * w)%nat) by nia.
        rewrite Vr by lia. rewrite V0 by lia. rewrite AT_u by assumption.
        cbn beta. rewrite (rsum_single (N + 1) k).
        * cbn [Nat.add]. unfold inc. rewrite seg_in by exact Hi. rewrite seg_out by lia. lra.
        * exact Hk.
        * intros kk Hkk Ek. cbn [Nat.add]. destruct (blk_out k kk w (nx + i)) as [O1|O1]; [lia|exact Ek| |];
            unfold inc; rewrite !seg_out by lia; lra.
  Qed.

  (* rows of G and of h: block 0, then blocks 1..N *)
  Lemma flat_l (Pr : nat -> Prop) :
    (forall i, (i < nx)%nat -> Pr i) ->
    (forall k i, (k < N)%nat -> (i < nx)%nat -> Pr (S k * nx + i)%nat) ->
    forall p, (p < (N + 1) * nx)%nat -> Pr p.
  Proof.
    intros H1 H2. apply flat. intros [|k] r Hk Hr; [apply H1; exact Hr|apply H2; [lia|exact Hr]].
  Qed.

  Lemma mpcG x a b y : length x = n_z P -> length y = n_l P -> exists r,
    mpc_gemvG Rops d x a b y = Ok r /\ length r = n_l P /\
    forall i, (i < n_l P)%nat -> rg r i = a * times (n_z P) (cG P) (rg x) i + b * rg y i.
  Proof.
    intros Lx Ly. unfold mpc_gemvG. cbn [n_z n_l ocp_qp] in Lx, Ly. setup.
    destruct (prescale_R b y) as [L0 V0].
    destruct (acc_vec_R (- a) 0 nx (vseg Rops x 0 nx) (prescale Rops b y)) as [L1 V1].
    set (inc := fun k p => seg (k * nx) nx (fun i => a * (times nx (oA o (k - 1)) (xs o (rg x) (k - 1)) i + times nu (oB o (k - 1)) (us o (rg x) (k - 1)) i)) p
                         + seg (k * nx) nx (fun i => - a * xs o (rg x) k i) p).
    change (o_opp Rops a) with (- a).
    match goal with |- context [for_from _ _ ?f ?y0] => destruct (loop_R f inc ((N + 1) * nx) N 1 y0) as (r & Er & Lr & Vr) end.
    - congruence.
    - intros k z Hk Lz. stage HA. stage HB. shapes. eexists. split; [reflexivity|].
      match goal with |- context [acc2 Rops a ?s ?n ?p1 ?p2 z] =>
        pose proof (acc2_R a s n p1 p2 z) as PI; set (z1 := acc2 Rops a s n p1 p2 z) in * end.
      clearbody z1. eapply inc_ext; [eapply inc_trans; [exact PI|]|].
      + instantiate (1 := seg (k * nx) nx (fun i => - a * rg (vseg Rops x (k * w) nx) i)).
        cbn [o_eqb o_one o_add o_sub o_mul Rops]. unfold o_mone. cbn [o_opp o_one Rops].
        destruct (Reqb a 1) eqn:E1; [|destruct (Reqb a (-(1))) eqn:E2].
        * apply Reqb_true in E1. apply seg_upd_gen. intros i Hi. subst a. lra.
        * apply Reqb_true in E2. apply seg_upd_gen. intros i Hi. subst a. lra.
        * apply seg_upd_gen. intros i Hi. lra.
      + intros p Hp. unfold inc. f_equal; apply seg_ext; intros i Hi.
        * rewrite (mv_stage _ nx nx (oA o (k - 1))), (mv_stage _ nx nu (oB o (k - 1))); auto; intros; [apply SB|apply SA]; assumption || lia.
        * rewrite seg_entry by exact Hi. reflexivity.
    - exists r. split; [exact Er|]. split; [cbn [n_l ocp_qp]; congruence|].
      cbn [n_l ocp_qp]. apply flat_l.
      + intros i Hi. assert (Lt : (i < (N + 1) * nx)%nat) by nia.
        rewrite Vr by lia. rewrite V1 by lia. rewrite V0 by lia. rewrite G_0 by assumption.
        cbn beta. rewrite (rsum_zero N).
        * rewrite (seg_in 0 nx _ i Hi). rewrite seg_entry by exact Hi. unfold xs. cbn [Nat.mul Nat.add]. lra.
        * intros kk Hkk. unfold inc. rewrite !seg_out by (cbn; lia). lra.
      + intros k i Hk Hi. assert (Lt : (S k * nx + i < (N + 1) * nx)%nat) by nia.
        rewrite Vr by lia. rewrite V1 by lia. rewrite V0 by lia. rewrite G_S by assumption.
        cbn beta. rewrite (rsum_single N k).
        * change (1 + k)%nat with (S k). unfold inc. rewrite !seg_in by exact Hi. rewrite (seg_out 0) by (cbn; lia).
          replace (S k - 1)%nat with k by lia. lra.
        * exact Hk.
        * intros kk Hkk Ek. destruct (blk_out (S k) (1 + kk) nx i) as [O1|O1]; [lia|lia| |];
            unfold inc; rewrite !seg_out by lia; lra.
  Qed.

  (* what gemvGT computes for every scaling: the control entries are scaled by [ua], which is a
     for a = 1 and a = -1 and zero otherwise *)
  Definition ua (a : R) : R := if Reqb a 1 || Reqb a (-(1)) then a else 0.
  Lemma mpcGT_gen x a b y : length x = n_l P -> length y = n_z P -> exists r,
    mpc_gemvGT Rops d x a b y = Ok r /\ length r = n_z P /\
    (forall k i, (k < N + 1)%nat -> (i < nx)%nat ->
       rg r (k * w + i)%nat = a * ttimes (n_l P) (cG P) (rg x) (k * w + i) + b * rg y (k * w + i)%nat) /\
    (forall k i, (k < N + 1)%nat -> (i < nu)%nat ->
       rg r (k * w + nx + i)%nat = ua a * ttimes (n_l P) (cG P) (rg x) (k * w + nx + i) + b * rg y (k * w + nx + i)%nat).
  Proof.
    intros Lx Ly. unfold mpc_gemvGT. cbn [n_z n_l ocp_qp] in Lx, Ly. setup.
    destruct (prescale_R b y) as [L0 V0].
    set (inc := fun k p => seg (k * w) nx (fun i => - a * ls o (rg x) k i) p
                         + seg (k * w) nx (fun i => a * ttimes nx (oA o k) (ls o (rg x) (S k)) i) p
                         + seg (k * w + nx) nu (fun i => ua a * ttimes nx (oB o k) (ls o (rg x) (S k)) i) p).
    change (o_opp Rops a) with (- a).
    match goal with |- context [for_n _ ?f _] => destruct (loop_R f inc ((N + 1) * w) N 0 (prescale Rops b y)) as (r & Er & Lr & Vr) end.
    - congruence.
    - intros k z Hk Lz. stage HA. stage HB. shapes. eexists. split; [reflexivity|].
      match goal with |- context [acc_vec Rops (- a) ?s ?n ?p1 z] =>
        pose proof (acc_vec_R (- a) s n p1 z) as PI; set (z0 := acc_vec Rops (- a) s n p1 z) in * end.
      match goal with |- context [acc1 Rops a ?s ?n ?p1 z0] =>
        pose proof (acc1_R a s n p1 z0) as PI1; set (z1 := acc1 Rops a s n p1 z0) in * end.
      clearbody z0 z1.
      eapply inc_ext; [eapply inc_trans; [eapply inc_trans; [exact PI|exact PI1]|]|].
      + instantiate (1 := seg (k * w + nx) nu (fun i => ua a * rg (mtv Rops (stg (m_B (md_m d)) k) (vseg Rops x ((k + 1) * nx) nx)) i)).
        unfold ua. cbn [o_eqb o_one Rops]. unfold o_mone. cbn [o_opp o_one Rops].
        destruct (Reqb a 1 || Reqb a (-(1))) eqn:E1; [apply acc1_R|].
        split; [reflexivity|]. intros p Hp. unfold seg. destruct (_ && _); lra.
      + intros p Hp. unfold inc. f_equal; [f_equal|]; apply seg_ext; intros i Hi.
        * rewrite seg_entry by exact Hi. reflexivity.
        * rewrite (mtv_stage _ nx nx (oA o k)); auto; [|intros; apply SA; assumption || lia].
          unfold ls. replace (k + 1)%nat with (S k) by lia. reflexivity.
        * rewrite (mtv_stage _ nx nu (oB o k)); auto; [|intros; apply SB; assumption || lia].
          unfold ls. replace (k + 1)%nat with (S k) by lia. reflexivity.
    - unfold for_n. rewrite Er. cbn [rbind]. eexists. split; [reflexivity|].
      destruct (acc_vec_R (- a) (N * w) nx (vseg Rops x (N * nx) nx) r) as [L2 V2].
      split; [cbn [n_z ocp_qp]; congruence|].
      split.
      + intros k i Hk Hi. assert (Lt : (k * w + i < (N + 1) * w)%nat) by nia.
        rewrite V2 by lia. rewrite Vr by lia. rewrite V0 by lia.
        destruct (Nat.eq_dec k N) as [->|NE].
        * rewrite GT_N_x by assumption. rewrite seg_in by exact Hi. rewrite seg_entry by exact Hi.
          cbn beta. rewrite (rsum_zero N); [unfold ls; lra|]. intros kk Hkk. cbn [Nat.add].
          destruct (blk_out N kk w i) as [O1|O1]; [lia|lia| |]; unfold inc; rewrite !seg_out by lia; lra.
        * rewrite GT_x by (assumption || lia).
          rewrite (seg_out (N * w)) by (left; destruct (blk_out k N w i); lia).
          cbn beta. rewrite (rsum_single N k).
          -- cbn [Nat.add]. unfold inc. rewrite !seg_in by exact Hi. rewrite seg_out by lia. lra.
          -- lia.
          -- intros kk Hkk Ek. cbn [Nat.add]. destruct (blk_out k kk w i) as [O1|O1]; [lia|exact Ek| |];
               unfold inc; rewrite !seg_out by lia; lra.
      + intros k i Hk Hi. assert (Lt : (k * w + nx + i < (N + 1) * w)%nat) by nia.
        rewrite V2 by lia. rewrite Vr by lia. rewrite V0 by lia.
        destruct (Nat.eq_dec k N) as [->|NE].
        * rewrite GT_N_u by assumption. rewrite seg_out by lia.
          cbn beta. rewrite (rsum_zero N); [lra|]. intros kk Hkk. cbn [Nat.add].
          destruct (blk_out N kk w (nx + i)) as [O1|O1]; [lia|lia| |]; unfold inc; rewrite !seg_out by lia; lra.
        * rewrite GT_u by (assumption || lia).
          rewrite (seg_out (N * w)) by (left; destruct (blk_out k N w (nx + i)); lia).
          cbn beta. rewrite (rsum_single N k).
          -- cbn [Nat.add]. unfold inc. rewrite (seg_in (k * w + nx)) by exact Hi. rewrite !seg_out by lia. lra.
          -- lia.
          -- intros kk Hkk Ek. cbn [Nat.add]. destruct (blk_out k kk w (nx + i)) as [O1|O1]; [lia|exact Ek| |];
               unfold inc; rewrite !seg_out by lia; lra.
  Qed.

  Lemma mpcGT x a b y : a = 1 \/ a = -1 \/ a = 0 -> length x = n_l P -> length y = n_z P -> exists r,
    mpc_gemvGT Rops d x a b y = Ok r /\ length r = n_z P /\
    forall i, (i < n_z P)%nat -> rg r i = a * ttimes (n_l P) (cG P) (rg x) i + b * rg y i.
  Proof.
    intros Ha Lx Ly. destruct (mpcGT_gen x a b y Lx Ly) as (r & E & L & Vx & Vu).
    assert (U : ua a = a).
    { unfold ua. destruct (Reqb a 1 || Reqb a (-(1))) eqn:E1; [reflexivity|].
      apply orb_false_iff in E1. destruct E1 as [E1 E2]. apply Reqb_false in E1, E2. lra. }
    exists r. split; [exact E|]. split; [exact L|]. rewrite U in Vu. cbn [n_z ocp_qp].
    apply (flat_xu o (fun p => rg r p = a * ttimes (n_l P) (cG P) (rg x) p + b * rg y p)); assumption.
  Qed.

  Lemma mpcf a y : length y = n_z P -> exists r,
    mpc_axpyf Rops d a y = Ok r /\ length r = n_z P /\
    forall i, (i < n_z P)%nat -> rg r i = a * cf P i + rg y i.
  Proof.
    intros Ly. unfold mpc_axpyf. cbn [n_z n_v ocp_qp] in Ly. setup.
    set (inc := fun k p => seg (k * w) nx (fun i => a * cq o k i) p
                         + seg (k * w + nx) nu (fun i => a * cr o k i) p).
    match goal with |- context [for_n _ ?f _] => destruct (loop_R f inc ((N + 1) * w) (N + 1) 0 y) as (r & Er & Lr & Vr) end.
    - congruence.
    - intros k z Hk Lz. stage Hq. stage Hr. shapes. eexists. split; [reflexivity|].
      eapply inc_ext; [eapply inc_trans; apply acc_vec_R|]. intros p Hp. unfold inc. f_equal; apply seg_ext; intros i Hi.
      + rewrite (mcol_stage _ nx (cq o k)); auto; intros; apply Sq; assumption || lia.
      + rewrite (mcol_stage _ nu (cr o k)); auto; intros; apply Sr; assumption || lia.
    - exists r. split; [exact Er|]. split; [cbn [n_z ocp_qp]; congruence|].
      cbn [n_z ocp_qp].
      apply (flat_xu o (fun p => rg r p = a * cf P p + rg y p)).
      + intros k i Hk Hi. assert (Lt : (k * w + i < (N + 1) * w)%nat) by nia.
        rewrite Vr by lia. rewrite f_x by assumption.
        cbn beta. rewrite (rsum_single (N + 1) k).
        * cbn [Nat.add]. unfold inc. rewrite seg_in by exact Hi. rewrite seg_out by lia. lra.
        * exact Hk.
        * intros kk Hkk Ek. cbn [Nat.add]. destruct (blk_out k kk w i) as [O1|O1]; [lia|exact Ek| |];
            unfold inc; rewrite !seg_out by lia; lra.
      + intros k i Hk Hi. assert (Lt : (k * w + nx + i < (N + 1) * w)%nat) by nia.
        rewrite Vr by lia. rewrite f_u by assumption.
        cbn beta. rewrite (rsum_single (N + 1) k).
        * cbn [Nat.add]. unfold inc. rewrite seg_in by exact Hi. rewrite seg_out by lia. lra.
        * exact Hk.
        * intros kk Hkk Ek. cbn [Nat.add]. destruct (blk_out k kk w (nx + i)) as [O1|O1]; [lia|exact Ek| |];
            unfold inc; rewrite !seg_out by lia; lra.
  Qed.

  Lemma mpcb a y : length y = n_v P -> exists r,
    mpc_axpyb Rops d a y = Ok r /\ length r = n_v P /\
    forall i, (i < n_v P)%nat -> rg r i = a * cb P i + rg y i.
  Proof.
    intros Ly. unfold mpc_axpyb. cbn [n_z n_v ocp_qp] in Ly. setup.
    set (inc := fun k p => seg (k * nc) nc (fun i => - a * od o k i) p).
    match goal with |- context [for_n _ ?f _] => destruct (loop_R f inc ((N + 1) * nc) (N + 1) 0 y) as (r & Er & Lr & Vr) end.
    - congruence.
    - intros k z Hk Lz. stage HD. shapes. eexists. split; [reflexivity|].
      eapply inc_ext; [apply acc_vec_R|]. intros p Hp. unfold inc. apply seg_ext; intros i Hi.
      rewrite (mcol_stage _ nc (od o k)); auto; intros; apply SD; assumption || lia.
    - exists r. split; [exact Er|]. split; [cbn [n_v ocp_qp]; congruence|].
      cbn [n_v ocp_qp]. apply flat. intros k i Hk Hi.
      assert (Lt : (k * nc + i < (N + 1) * nc)%nat) by nia.
      rewrite Vr by lia. rewrite b_row by assumption.
      cbn beta. rewrite (rsum_single (N + 1) k).
      * cbn [Nat.add]. unfold inc. rewrite seg_in by exact Hi. lra.
      * exact Hk.
      * intros kk Hkk Ek. cbn [Nat.add]. destruct (blk_out k kk nc i) as [O1|O1]; [lia|exact Ek| |];
          unfold inc; rewrite !seg_out by lia; lra.
  Qed.

  Lemma mpch a y : length y = n_l P -> exists r,
    mpc_axpyh Rops d a y = Ok r /\ length r = n_l P /\
    forall i, (i < n_l P)%nat -> rg r i = a * ch P i + rg y i.
  Proof.
    intros Ly. unfold mpc_axpyh. cbn [n_z n_l ocp_qp] in Ly. setup.
    destruct (acc_vec_R (- a) 0 nx (m_x0 (md_m d)) y) as [L1 V1].
    set (inc := fun k p => seg (k * nx) nx (fun i => - a * oc o (k - 1) i) p).
    change (o_opp Rops a) with (- a).
    match goal with |- context [for_from _ _ ?f ?y0] => destruct (loop_R f inc ((N + 1) * nx) N 1 y0) as (r & Er & Lr & Vr) end.
    - congruence.
    - intros k z Hk Lz. stage Hc. shapes. eexists. split; [reflexivity|].
      eapply inc_ext; [apply acc_vec_R|]. intros p Hp. unfold inc. apply seg_ext; intros i Hi.
      rewrite (mcol_stage _ nx (oc o (k - 1))); auto; intros; apply Sc; assumption || lia.
    - exists r. split; [exact Er|]. split; [cbn [n_l ocp_qp]; congruence|].
      cbn [n_l ocp_qp]. apply flat_l.
      + intros i Hi. assert (Lt : (i < (N + 1) * nx)%nat) by nia.
        rewrite Vr by lia. rewrite V1 by lia. rewrite h_0 by assumption.
        cbn beta. rewrite (rsum_zero N).
        * rewrite (seg_in 0 nx _ i Hi). rewrite Sx0 by exact Hi. lra.
        * intros kk Hkk. unfold inc. rewrite !seg_out by (cbn; lia). lra.
      + intros k i Hk Hi. assert (Lt : (S k * nx + i < (N + 1) * nx)%nat) by nia.
        rewrite Vr by lia. rewrite V1 by lia. rewrite h_S by assumption.
        cbn beta. rewrite (rsum_single N k).
        * change (1 + k)%nat with (S k). unfold inc. rewrite !seg_in by exact Hi. rewrite (seg_out 0) by (cbn; lia).
          replace (S k - 1)%nat with k by lia. lra.
        * exact Hk.
        * intros kk Hkk Ek. destruct (blk_out (S k) (1 + kk) nx i) as [O1|O1]; [lia|lia| |];
            unfold inc; rewrite !seg_out by lia; lra.
  Qed.
End MpcR.
