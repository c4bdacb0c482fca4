(* C35: RiccatiLinearSolver computes the Newton step of the explicit problem. *)
From Verif Require Export RiccatiVec PropsWeights MpcExplicit RunR.
Local Open Scope R_scope.

Lemma concat_rg {A} (f : A -> vec R) w (a0 : A) (sol : list A) : (forall s, In s sol -> length (f s) = w) ->
  forall j i, (j < length sol)%nat -> (i < w)%nat ->
  rg (concat (map f sol)) (j * w + i) = rg (f (nth j sol a0)) i.
Proof.
  induction sol as [|s sol IH]; intros L j i Hj Hi; [cbn in Hj; lia|].
  cbn [map concat]. assert (Ls : length (f s) = w) by (apply L; left; reflexivity).
  unfold vget. destruct j as [|j].
  - cbn [nth Nat.mul Nat.add]. rewrite app_nth1 by (rewrite Ls; exact Hi). reflexivity.
  - rewrite app_nth2 by (rewrite Ls; cbn; lia). rewrite Ls.
    replace (S j * w + i - w)%nat with (j * w + i)%nat by (cbn; lia).
    apply IH; [intros; apply L; right; assumption|cbn in Hj; lia|exact Hi].
Qed.

Section Assemble.
  Context (o : OCP) (sg : R) (g m : nat -> R) (Gm : vec R).
  Notation N := (oN o). Notation nx := (onx o). Notation nu := (onu o). Notation nc := (onc o).
  Notation w := (nx + nu)%nat. Notation P := (ocp_qp o).
  Notation Qh := (Qh o sg Gm). Notation Rh := (Rh o sg Gm). Notation Sh := (Sh o Gm).
  Hypothesis mpos : forall k, (k < n_v P)%nat -> 0 < m k.
  Hypothesis Geq : forall k, (k < n_v P)%nat -> rg Gm k = g k / m k.
  Notation G k c := (rg Gm (k * nc + c)).

  Lemma weighted_times n k (CE CF : nat -> nat -> R) v i :
    rsum n (fun j => rsum nc (fun c => CE c i * (G k c * CF c j)) * v j) =
    ttimes nc CE (fun c => G k c * times n CF v c) i.
  Proof.
    unfold ttimes, times.
    transitivity (rsum n (fun j => rsum nc (fun c => CE c i * (G k c * CF c j) * v j))).
    { apply rsum_ext. intros j _. rewrite rsum_scal_r. reflexivity. }
    rewrite rsum_swap. apply rsum_ext. intros c _. rewrite <- !rsum_scal. apply rsum_ext; intros; ring.
  Qed.
  Lemma weighted_ttimes n k (CE CF : nat -> nat -> R) v i :
    rsum n (fun j => rsum nc (fun c => CE c j * (G k c * CF c i)) * v j) =
    ttimes nc CF (fun c => G k c * times n CE v c) i.
  Proof.
    rewrite <- weighted_times. apply rsum_ext. intros j _. f_equal. apply rsum_ext; intros; ring.
  Qed.
  Lemma Qh_times k x i : (i < nx)%nat -> times nx (Qh k) x i =
    times nx (cQ o k) x i + sg * x i + ttimes nc (oE o k) (fun c => G k c * times nx (oE o k) x c) i.
  Proof.
    intro Hi. rewrite <- weighted_times. unfold times, Qh.
    rewrite (rsum_ext nx _ (fun j => cQ o k i j * x j + ((if Nat.eqb j i then sg * x j else 0) +
       rsum nc (fun c => oE o k c i * (G k c * oE o k c j)) * x j))).
    - rewrite !rsum_add, (rsum_if_eq nx i (fun j => sg * x j) Hi). ring.
    - intros j _. rewrite (Nat.eqb_sym j i). destruct (Nat.eqb i j); ring.
  Qed.
  Lemma Rh_times k x i : (i < nu)%nat -> times nu (Rh k) x i =
    times nu (cR o k) x i + sg * x i + ttimes nc (oL o k) (fun c => G k c * times nu (oL o k) x c) i.
  Proof.
    intro Hi. rewrite <- weighted_times. unfold times, Rh.
    rewrite (rsum_ext nu _ (fun j => cR o k i j * x j + ((if Nat.eqb j i then sg * x j else 0) +
       rsum nc (fun c => oL o k c i * (G k c * oL o k c j)) * x j))).
    - rewrite !rsum_add, (rsum_if_eq nu i (fun j => sg * x j) Hi). ring.
    - intros j _. rewrite (Nat.eqb_sym j i). destruct (Nat.eqb i j); ring.
  Qed.
  Lemma Sh_times k x i : times nx (Sh k) x i =
    times nx (cS o k) x i + ttimes nc (oL o k) (fun c => G k c * times nx (oE o k) x c) i.
  Proof.
    rewrite <- weighted_times. unfold times, Sh. rewrite <- rsum_add. apply rsum_ext; intros; ring.
  Qed.
  Lemma Sh_ttimes k u i : ttimes nu (Sh k) u i =
    ttimes nu (cS o k) u i + ttimes nc (oE o k) (fun c => G k c * times nu (oL o k) u c) i.
  Proof.
    rewrite <- weighted_ttimes. unfold ttimes, Sh. rewrite <- rsum_add. apply rsum_ext; intros; ring.
  Qed.

  (* the stage equations as functions of the stage *)
  Definition stage_system (X U L : nat -> nat -> R) (r1x r1u r2 : nat -> nat -> R) : Prop :=
    (forall k i, (k < N)%nat -> (i < nx)%nat ->
       times nx (Qh k) (X k) i + ttimes nu (Sh k) (U k) i - L k i + ttimes nx (oA o k) (L (S k)) i = r1x k i) /\
    (forall i, (i < nx)%nat -> times nx (Qh N) (X N) i + ttimes nu (Sh N) (U N) i - L N i = r1x N i) /\
    (forall k i, (k < N)%nat -> (i < nu)%nat ->
       times nx (Sh k) (X k) i + times nu (Rh k) (U k) i + ttimes nx (oB o k) (L (S k)) i = r1u k i) /\
    (forall i, (i < nu)%nat -> times nx (Sh N) (X N) i + times nu (Rh N) (U N) i = r1u N i) /\
    (forall k i, (k < N)%nat -> (i < nx)%nat ->
       times nx (oA o k) (X k) i + times nu (oB o k) (U k) i - X (S k) i - sg * L (S k) i = r2 (S k) i).

  Lemma assemble dz dl dv rz rl rv :
    stage_system (xs o dz) (us o dz) (ls o dl)
      (fun k i => rz (k * w + i)%nat - ttimes (n_v P) (cA P) (fun c => rv c / m c) (k * w + i))
      (fun k i => rz (k * w + nx + i)%nat - ttimes (n_v P) (cA P) (fun c => rv c / m c) (k * w + nx + i))
      (fun k i => - rl (k * nx + i)%nat) ->
    (forall i, (i < nx)%nat -> - xs o dz 0 i - sg * ls o dl 0 i = - rl i) ->
    (forall k, (k < n_v P)%nat -> dv k = (rv k + g k * times (n_z P) (cA P) dz k) / m k) ->
    newton_system P sg g m dz dl dv rz rl rv.
  Proof.
    intros (SX & SXN & SU & SUN & SL) SL0 V.
    assert (Hk : forall k c, (k < N + 1)%nat -> (c < nc)%nat -> (k * nc + c < n_v P)%nat).
    { intros k c A B. cbn [n_v ocp_qp]. nia. }
    assert (DV : forall k c, (k < N + 1)%nat -> (c < nc)%nat -> vs o dv k c =
      vs o (fun c => rv c / m c) k c + G k c * (times nx (oE o k) (xs o dz k) c + times nu (oL o k) (us o dz k) c)).
    { intros k c A B. unfold vs. rewrite V by (apply Hk; assumption). rewrite A_row by assumption.
      rewrite Geq by (apply Hk; assumption). field. apply Rgt_not_eq. apply mpos. apply Hk; assumption. }
    assert (ATd : forall (C : nat -> nat -> R) k i, (k < N + 1)%nat -> ttimes nc C (vs o dv k) i =
      ttimes nc C (vs o (fun c => rv c / m c) k) i + ttimes nc C (fun c => G k c * times nx (oE o k) (xs o dz k) c) i +
      ttimes nc C (fun c => G k c * times nu (oL o k) (us o dz k) c) i).
    { intros C k i A. rewrite <- !ttimes_plus. apply ttimes_ext. intros c Hc. rewrite DV by assumption. ring. }
    split; [|split].
    - cbn [n_z ocp_qp]. apply (flat_xu o).
      + intros k i Hk1 Hi. change (N + 1)%nat with (oN o + 1)%nat in Hk1.
        change ((N + 1) * w)%nat with (n_z P). change ((N + 1) * nx)%nat with (n_l P). change ((N + 1) * nc)%nat with (n_v P).
        rewrite H_x, AT_x, ATd by assumption.
        destruct (Nat.eq_dec k N) as [ -> |NE].
        * rewrite GT_N_x by exact Hi. specialize (SXN i Hi). rewrite AT_x in SXN by assumption.
          rewrite Qh_times, Sh_ttimes in SXN by exact Hi. change (dz (N * w + i)%nat) with (xs o dz N i). lra.
        * assert (Hk2 : (k < N)%nat) by lia. rewrite GT_x by assumption. specialize (SX k i Hk2 Hi).
          rewrite AT_x in SX by assumption.
          rewrite Qh_times, Sh_ttimes in SX by exact Hi. change (dz (k * w + i)%nat) with (xs o dz k i). lra.
      + intros k i Hk1 Hi.
        change ((N + 1) * w)%nat with (n_z P). change ((N + 1) * nx)%nat with (n_l P). change ((N + 1) * nc)%nat with (n_v P).
        rewrite H_u, AT_u, ATd by assumption.
        destruct (Nat.eq_dec k N) as [ -> |NE].
        * rewrite GT_N_u by exact Hi. specialize (SUN i Hi). rewrite AT_u in SUN by assumption.
          rewrite Rh_times, Sh_times in SUN by exact Hi. change (dz (N * w + nx + i)%nat) with (us o dz N i). lra.
        * assert (Hk2 : (k < N)%nat) by lia. rewrite GT_u by assumption. specialize (SU k i Hk2 Hi).
          rewrite AT_u in SU by assumption.
          rewrite Rh_times, Sh_times in SU by exact Hi. change (dz (k * w + nx + i)%nat) with (us o dz k i). lra.
    - cbn [n_l ocp_qp]. apply (flat_l o).
      + intros i Hi. change ((N + 1) * w)%nat with (n_z P). rewrite G_0 by exact Hi.
        specialize (SL0 i Hi). change (dl i) with (ls o dl 0 i). lra.
      + intros k i Hk1 Hi. change ((N + 1) * w)%nat with (n_z P). rewrite G_S by assumption.
        specialize (SL k i Hk1 Hi). change (dl (S k * nx + i)%nat) with (ls o dl (S k) i). lra.
    - intros k Hk1. rewrite V by exact Hk1. field. apply Rgt_not_eq. apply mpos. exact Hk1.
  Qed.
End Assemble.

Section FromSolved.
  Context (o : OCP) (sg : R) (Gm : vec R).
  Notation N := (oN o). Notation nx := (onx o). Notation nu := (onu o). Notation nc := (onc o).
  Notation w := (nx + nu)%nat.
  Notation Qh := (Qh o sg Gm). Notation Rh := (Rh o sg Gm). Notation Sh := (Sh o Gm).
  Notation solved := (solved o sg Gm).
  Notation triple := (vec R * vec R * vec R)%type.
  Definition t0 : triple := ([], [], []).

  Lemma solved_len r1 r2 k sol : solved r1 r2 k sol -> (length sol + k = N + 1)%nat /\ Forall (lens o) sol.
  Proof.
    induction 1 as [x u l L E1 E2|k x u l x1 u1 l1 rest Hk L E1 E2 E3 S1 [IH1 IH2]].
    - split; [cbn; lia|repeat constructor; apply L].
    - split; [cbn in *; lia|]. constructor; [exact L|exact IH2].
  Qed.

  Lemma solved_sys r1 r2 k sol : solved r1 r2 k sol ->
    let at_ j := nth (j - k) sol t0 in
    let X j := rg (fst (fst (at_ j))) in let U j := rg (snd (fst (at_ j))) in let L j := rg (snd (at_ j)) in
    (forall j i, (k <= j < N)%nat -> (i < nx)%nat ->
       times nx (Qh j) (X j) i + ttimes nu (Sh j) (U j) i - L j i + ttimes nx (oA o j) (L (S j)) i =
       rg (blk_x Rops r1 nx nu j) i) /\
    (forall i, (i < nx)%nat -> times nx (Qh N) (X N) i + ttimes nu (Sh N) (U N) i - L N i =
       rg (blk_x Rops r1 nx nu N) i) /\
    (forall j i, (k <= j < N)%nat -> (i < nu)%nat ->
       times nx (Sh j) (X j) i + times nu (Rh j) (U j) i + ttimes nx (oB o j) (L (S j)) i =
       rg (blk_u Rops r1 nx nu j) i) /\
    (forall i, (i < nu)%nat -> times nx (Sh N) (X N) i + times nu (Rh N) (U N) i = rg (blk_u Rops r1 nx nu N) i) /\
    (forall j i, (k <= j < N)%nat -> (i < nx)%nat ->
       times nx (oA o j) (X j) i + times nu (oB o j) (U j) i - X (S j) i - sg * L (S j) i =
       rg (blk_l Rops r2 nx (S j)) i).
  Proof.
    induction 1 as [x u l L E1 E2|k x u l x1 u1 l1 rest Hk L E1 E2 E3 S1 IH]; cbv beta zeta.
    - rewrite !Nat.sub_diag. cbn [nth fst snd]. repeat split; try (intros; lia); assumption.
    - cbv beta zeta in IH. destruct IH as (I1 & I2 & I3 & I4 & I5).
      assert (SH : forall j, (S k <= j)%nat -> nth (j - k) ((x, u, l) :: (x1, u1, l1) :: rest) t0 =
                                          nth (j - S k) ((x1, u1, l1) :: rest) t0).
      { intros j Hj. replace (j - k)%nat with (S (j - S k)) by lia. reflexivity. }
      assert (HD : nth (k - k) ((x, u, l) :: (x1, u1, l1) :: rest) t0 = (x, u, l)) by (rewrite Nat.sub_diag; reflexivity).
      assert (HD1 : nth (S k - k) ((x, u, l) :: (x1, u1, l1) :: rest) t0 = (x1, u1, l1))
        by (replace (S k - k)%nat with 1%nat by lia; reflexivity).
      assert (HN : (S k <= N)%nat) by lia.
      repeat split.
      + intros j i Hj Hi. destruct (Nat.eq_dec j k) as [ -> |NE].
        * rewrite HD, HD1. cbn [fst snd]. apply E1; exact Hi.
        * rewrite !SH by lia. apply I1; [lia|exact Hi].
      + intros i Hi. rewrite !SH by lia. apply I2; exact Hi.
      + intros j i Hj Hi. destruct (Nat.eq_dec j k) as [ -> |NE].
        * rewrite HD, HD1. cbn [fst snd]. apply E2; exact Hi.
        * rewrite !SH by lia. apply I3; [lia|exact Hi].
      + intros i Hi. rewrite !SH by lia. apply I4; exact Hi.
      + intros j i Hj Hi. destruct (Nat.eq_dec j k) as [ -> |NE].
        * rewrite HD, HD1. cbn [fst snd]. apply E3; exact Hi.
        * rewrite !SH by lia. apply I5; [lia|exact Hi].
  Qed.
End FromSolved.

Section Step.
  Context (LA : LinAlg R) (LL : LALaws LA) (d : mpc_data R) (o : OCP).
  Notation N := (oN o). Notation nx := (onx o). Notation nu := (onu o). Notation nc := (onc o).
  Notation w := (nx + nu)%nat. Notation P := (ocp_qp o).
  Context (Hd : mpc_ok d N nx nu nc) (Hs : describes d o).
  Context (EX : Explicit (mpcDI Rops) d P).
  Context (al sg : R) (x xb : var R) (Hal : 0 < al < 1) (Hsg : 0 < sg).
  Notation gam := (w_gamma Rops al sg x xb (n_v P)).
  Notation mus := (w_mus Rops al sg x xb (n_v P)).
  Notation Gm := (w_Gamma Rops gam mus).
  Notation L0 := (meye Rops nx (o_sqrt Rops sg)).
  Notation fact := (m_fact Rops LA d N nx nu nc al sg x xb).
  Notation step r := (m_pst Rops LA d N nx nu nc al sg x xb r).
  Hypothesis symQ : forall k i j, (k < N + 1)%nat -> (i < nx)%nat -> (j < nx)%nat -> cQ o k i j = cQ o k j i.
  Hypothesis symR : forall k i j, (k < N + 1)%nat -> (i < nu)%nat -> (j < nu)%nat -> cR o k i j = cR o k j i.

  Lemma L0_tri : tri L0 nx.
  Proof.
    split; [reflexivity|]. split; [reflexivity|]. intros i Hi. unfold meye. rewrite (mget_mtab Rops) by exact Hi.
    rewrite Nat.eqb_refl. cbn [o_sqrt Rops o_one o_mul]. assert (K := sqrt_lt_R0 sg Hsg). nra.
  Qed.
  Lemma L0_gram i j : (i < nx)%nat -> (j < nx)%nat ->
    gram nx (lowf (rm L0)) i j = if Nat.eqb i j then sg else 0.
  Proof.
    intros Hi Hj.
    assert (E : forall a b, (a < nx)%nat -> (b < nx)%nat -> lowf (rm L0) a b = if Nat.eqb a b then sqrt sg else 0).
    { intros a b Ha Hb. unfold lowf, meye. rewrite (mget_mtab Rops) by assumption.
      cbn [o_sqrt o_mul o_one o_zero Rops].
      destruct (Nat.leb_spec b a); destruct (Nat.eqb_spec a b); try lia; try ring. }
    unfold gram. rewrite (rsum_ext nx _ (fun k => if Nat.eqb k i then (if Nat.eqb j i then sg else 0) else 0)).
    - rewrite (rsum_if_eq nx i (fun _ => if Nat.eqb j i then sg else 0) Hi), (Nat.eqb_sym j i). reflexivity.
    - intros k Hk. rewrite !E by assumption. rewrite (Nat.eqb_sym k i).
      destruct (Nat.eqb_spec i k) as [ -> |NE]; [|ring].
      destruct (Nat.eqb j k); [apply sqrt_sqrt; lra|ring].
  Qed.

  Lemma Gm_m : m_Gamma Rops N nc al sg x xb = Gm.
  Proof. reflexivity. Qed.
  Lemma zs_ok : Forall (stage_ok nx nu) (tab (N + 1) (fun _ => z_stage Rops nx nu)).
  Proof. apply z_stages_ok. Qed.

  Lemma fact_chain sts : fact = Some sts ->
    chain LA o sg Gm 0 sts /\ exists st l, sts = st :: l /\ st_L st = L0.
  Proof.
    unfold m_fact. intro E.
    destruct (ric_chain LA LL d o Hd Hs sg Gm Hsg symQ symR N 0 L0 (tab (N + 1) (fun _ => z_stage Rops nx nu)))
      as [K _]; [lia|rewrite tab_length; lia|exact zs_ok|exact L0_tri|].
    apply K. change (m_Gamma Rops N nc al sg x xb) with Gm in E.
    destruct (ric_matrices Rops LA N 0 _ d sg Gm _) as [s|e|u]; cbn [unres] in E; congruence.
  Qed.
  Lemma fact_some : forms_ok o sg Gm -> exists sts, fact = Some sts.
  Proof.
    intro FO.
    destruct (ric_chain LA LL d o Hd Hs sg Gm Hsg symQ symR N 0 L0 (tab (N + 1) (fun _ => z_stage Rops nx nu)))
      as [_ K]; [lia|rewrite tab_length; lia|exact zs_ok|exact L0_tri|].
    destruct (K FO) as [sts E]. exists sts. unfold m_fact. change (m_Gamma Rops N nc al sg x xb) with Gm.
    rewrite E. reflexivity.
  Qed.

  Lemma riccati_newton r : fact <> None -> rsd_ok (n_z P) (n_l P) (n_v P) r ->
    newton_system P sg (rg gam) (rg mus) (rg (v_z (step r))) (rg (v_l (step r))) (rg (v_v (step r)))
                  (rg (r_z r)) (rg (r_l r)) (rg (r_v r)) /\
    var_ok (n_z P) (n_l P) (n_v P) (step r) /\ y_is_margin P (step r).
  Proof.
    intros NF (R1 & R2 & R3).
    destruct fact as [sts|] eqn:EF; [|congruence]. clear NF.
    destruct (fact_chain sts EF) as (C & st & l' & -> & EL).
    unfold m_pst. cbv zeta. rewrite EF.
    change (RiccatiOk.nv N nc) with (n_v P).
    set (r3 := vquot Rops (r_v r) mus).
    assert (L3 : length r3 = n_v P) by (unfold r3; autorewrite with vlen; exact R3).
    destruct (ex_AT _ _ _ EX r3 (o_mone Rops) (o_one Rops) (r_z r) L3 R1) as (r1 & E1 & L1 & V1).
    replace (gAT (mpcDI Rops) d r3 (o_mone Rops) (o_one Rops) (r_z r)) with r1
      by (unfold gAT; rewrite E1; reflexivity).
    set (r2 := vopp Rops (r_l r)).
    assert (V2 : forall p, (p < n_l P)%nat -> rg r2 p = - rg (r_l r) p).
    { intros p Hp. unfold r2, vopp. rewrite (vget_tab Rops) by lia. reflexivity. }
    assert (V3 : forall p, (p < n_v P)%nat -> rg r3 p = rg (r_v r) p / rg mus p).
    { intros p Hp. unfold r3, vquot. rewrite (vget_tab Rops) by lia. reflexivity. }
    unfold ric_vectors.
    set (sol := ric_backward Rops LA _ _ 0 r1 nx nu).
    destruct (fb_solved LA LL o sg Gm (st :: l') 0 (blk_l Rops r2 nx 0) r1 r2 C) as [SV INV].
    { unfold blk_l. apply vseg_len. }
    fold sol in SV, INV.
    destruct (solved_len _ _ _ _ _ _ _ SV) as [LEN FL]. rewrite Nat.add_0_r in LEN.
    assert (LI : forall s, In s sol -> lens o s) by (apply Forall_forall; exact FL).
    set (dz := concat (map (fun s => fst (fst s) ++ snd (fst s)) sol)).
    set (dl := concat (map snd sol)).
    assert (Lxu : forall s, In s sol -> length (fst (fst s) ++ snd (fst s)) = w).
    { intros s Hs'. destruct (LI s Hs') as (A & B & _). rewrite app_length. unfold vec in *. lia. }
    assert (Ll : forall s, In s sol -> length (snd s) = nx) by (intros s Hs'; apply (LI s Hs')).
    assert (Ldz : length dz = n_z P).
    { unfold dz. rewrite (concat_len nx nu _ w).
      - rewrite LEN. reflexivity.
      - intros t (A & B & _). rewrite app_length. unfold vec in *. lia.
      - apply Forall_forall. exact LI. }
    assert (Ldl : length dl = n_l P).
    { unfold dl. rewrite (concat_len nx nu _ nx).
      - rewrite LEN. reflexivity.
      - intros t (_ & _ & E). exact E.
      - apply Forall_forall. exact LI. }
    assert (NTH : forall k, (k < N + 1)%nat -> lens o (nth k sol t0)).
    { intros k Hk. apply LI. apply nth_In. lia. }
    assert (Xe : forall k i, (k < N + 1)%nat -> (i < nx)%nat -> xs o (rg dz) k i = rg (fst (fst (nth k sol t0))) i).
    { intros k i Hk Hi. unfold xs, dz. rewrite (concat_rg _ w t0 sol Lxu) by lia.
      destruct (NTH k Hk) as (A & _). unfold vget. apply app_nth1. unfold vec in *. lia. }
    assert (Ue : forall k i, (k < N + 1)%nat -> (i < nu)%nat -> us o (rg dz) k i = rg (snd (fst (nth k sol t0))) i).
    { intros k i Hk Hi. unfold us, dz. replace (k * w + nx + i)%nat with (k * w + (nx + i))%nat by lia.
      rewrite (concat_rg _ w t0 sol Lxu) by lia.
      destruct (NTH k Hk) as (A & _). unfold vget. rewrite app_nth2 by (unfold vec in *; lia).
      f_equal. unfold vec in *. lia. }
    assert (Le : forall k i, (k < N + 1)%nat -> (i < nx)%nat -> ls o (rg dl) k i = rg (snd (nth k sol t0)) i).
    { intros k i Hk Hi. unfold ls, dl. rewrite (concat_rg _ nx t0 sol Ll) by lia. reflexivity. }
    (* dv, dy *)
    destruct (ex_A _ _ _ EX dz (o_one Rops) (o_zero Rops) (vconst (n_v P) (o_zero Rops)) Ldz (vconst_len _ _))
      as (Adz & EA & LA1 & VA).
    replace (gA (mpcDI Rops) d dz (o_one Rops) (o_zero Rops) (vconst (n_v P) (o_zero Rops))) with Adz
      by (unfold gA; rewrite EA; reflexivity).
    cbn [v_z v_l v_v].
    destruct (C33_weights al sg x xb (n_v P) Hal Hsg) as (W1 & W2 & W3 & W).
    split; [|split].
    - apply (assemble o sg (rg gam) (rg mus) Gm).
      + intros k Hk. apply (W k Hk).
      + intros k Hk. apply (W k Hk).
      + destruct (solved_sys o sg Gm r1 r2 0 sol SV) as (Q1 & Q2 & Q3 & Q4 & Q5).
        assert (TX : forall M k i n, n = nx -> (k < N + 1)%nat ->
          times n M (xs o (rg dz) k) i = times nx M (rg (fst (fst (nth (k - 0) sol t0)))) i).
        { intros M k i n -> Hk. rewrite Nat.sub_0_r. apply times_ext. intros j Hj. apply Xe; assumption. }
        assert (TU : forall M k i, (k < N + 1)%nat ->
          times nu M (us o (rg dz) k) i = times nu M (rg (snd (fst (nth (k - 0) sol t0)))) i).
        { intros M k i Hk. rewrite Nat.sub_0_r. apply times_ext. intros j Hj. apply Ue; assumption. }
        assert (TTU : forall M k i, (k < N + 1)%nat ->
          ttimes nu M (us o (rg dz) k) i = ttimes nu M (rg (snd (fst (nth (k - 0) sol t0)))) i).
        { intros M k i Hk. rewrite Nat.sub_0_r. apply ttimes_ext. intros j Hj. apply Ue; assumption. }
        assert (TTL : forall M k i, (k < N + 1)%nat ->
          ttimes nx M (ls o (rg dl) k) i = ttimes nx M (rg (snd (nth (k - 0) sol t0))) i).
        { intros M k i Hk. rewrite Nat.sub_0_r. apply ttimes_ext. intros j Hj. apply Le; assumption. }
        assert (R1x : forall k i, (k < N + 1)%nat -> (i < nx)%nat -> rg (blk_x Rops r1 nx nu k) i =
          rg (r_z r) (k * w + i) - ttimes (n_v P) (cA P) (fun c => rg (r_v r) c / rg mus c) (k * w + i)).
        { intros k i Hk Hi. unfold blk_x, vseg. rewrite (vget_tab Rops) by exact Hi.
          rewrite V1 by (cbn [n_z ocp_qp]; nia). unfold o_mone. cbn [o_opp o_one Rops].
          rewrite (ttimes_ext (n_v P) (cA P) (rg r3) _ _ V3). ring. }
        assert (R1u : forall k i, (k < N + 1)%nat -> (i < nu)%nat -> rg (blk_u Rops r1 nx nu k) i =
          rg (r_z r) (k * w + nx + i) - ttimes (n_v P) (cA P) (fun c => rg (r_v r) c / rg mus c) (k * w + nx + i)).
        { intros k i Hk Hi. unfold blk_u, vseg. rewrite (vget_tab Rops) by exact Hi.
          rewrite V1 by (cbn [n_z ocp_qp]; nia). unfold o_mone. cbn [o_opp o_one Rops].
          rewrite (ttimes_ext (n_v P) (cA P) (rg r3) _ _ V3). ring. }
        assert (R2l : forall k i, (k < N + 1)%nat -> (i < nx)%nat -> rg (blk_l Rops r2 nx k) i = - rg (r_l r) (k * nx + i)).
        { intros k i Hk Hi. unfold blk_l, vseg. rewrite (vget_tab Rops) by exact Hi. apply V2. cbn [n_l ocp_qp]. nia. }
        split; [|split; [|split; [|split]]].
        * intros k i Hk Hi. rewrite TX, TTU, TTL, Le, <- R1x by (reflexivity || lia).
          replace (nth k sol t0) with (nth (k - 0) sol t0) by (rewrite Nat.sub_0_r; reflexivity).
          apply Q1; [lia|exact Hi].
        * intros i Hi. rewrite TX, TTU, Le, <- R1x by (reflexivity || lia).
          replace (rg (snd (nth N sol t0)) i) with (rg (snd (nth (N - 0) sol t0)) i) by (rewrite Nat.sub_0_r; reflexivity).
          apply Q2; exact Hi.
        * intros k i Hk Hi. rewrite TX, TU, TTL, <- R1u by (reflexivity || lia). apply Q3; [lia|exact Hi].
        * intros i Hi. rewrite TX, TU, <- R1u by (reflexivity || lia). apply Q4; exact Hi.
        * intros k i Hk Hi. rewrite TX, TU, Le, Xe, <- R2l by (reflexivity || lia).
          replace (nth (S k) sol t0) with (nth (S k - 0) sol t0) by (rewrite Nat.sub_0_r; reflexivity).
          apply Q5; [lia|exact Hi].
      + intros i Hi. destruct sol as [|[[x1 u1] l1] rest] eqn:ES; [contradiction|].
        rewrite Xe, Le by lia. cbn [nth fst snd].
        assert (K := INV i Hi). rewrite EL in K.
        replace (times nx (gram nx (lowf (rm L0))) (rg l1) i) with (sg * rg l1 i) in K.
        * rewrite K. unfold blk_l, vseg. rewrite (vget_tab Rops) by exact Hi.
          cbn [Nat.mul Nat.add]. apply V2. cbn [n_l ocp_qp]. nia.
        * unfold times. rewrite (rsum_ext nx _ (fun j => if Nat.eqb j i then sg * rg l1 j else 0)).
          -- symmetry. apply (rsum_if_eq nx i (fun j => sg * rg l1 j) Hi).
          -- intros j Hj. rewrite L0_gram by assumption. rewrite (Nat.eqb_sym j i). destruct (Nat.eqb i j); ring.
      + intros k Hk. unfold vquot. autorewrite with vlen. rewrite (vget_tab Rops) by lia.
        rewrite vadd_R by lia. rewrite (vget_tab Rops) by exact Hk.
        rewrite VA by exact Hk. cbn [o_div o_mul o_one o_zero Rops]. f_equal. f_equal. ring.
    - split; [exact Ldz|]. split; [exact Ldl|]. cbn [v_v v_y].
      split; [autorewrite with vlen; exact R3|].
      destruct (ex_A _ _ _ EX dz (o_mone Rops) (o_zero Rops) (vconst (n_v P) (o_zero Rops)) Ldz (vconst_len _ _))
        as (y1 & Y1 & Y2 & Y3).
      destruct (ex_b _ _ _ EX (o_one Rops) y1 Y2) as (y2 & Z1 & Z2 & Z3).
      unfold gA, ab. rewrite Y1. cbn [unres]. rewrite Z1. exact Z2.
    - intros k Hk. cbn [v_z v_y].
      destruct (ex_A _ _ _ EX dz (o_mone Rops) (o_zero Rops) (vconst (n_v P) (o_zero Rops)) Ldz (vconst_len _ _))
        as (y1 & Y1 & Y2 & Y3).
      destruct (ex_b _ _ _ EX (o_one Rops) y1 Y2) as (y2 & Z1 & Z2 & Z3).
      unfold gA, ab. rewrite Y1. cbn [unres]. rewrite Z1. cbn [unres].
      rewrite Z3, Y3 by exact Hk. unfold margin, o_mone. rewrite rg_const by exact Hk.
      cbn [o_opp o_one o_zero Rops]. lra.
  Qed.
End Step.

(* ---------- the stage forms of a stage-wise convex problem ---------- *)
Lemma bil_times r c M u v : bil r c M u v = rsum r (fun i => u i * times c M v i).
Proof.
  unfold bil, times. apply rsum_ext; intros i _. rewrite <- rsum_scal. apply rsum_ext; intros; ring.
Qed.

Lemma stage_forms o sg Gm : stagewise_convex o -> (forall k, (k < n_v (ocp_qp o))%nat -> 0 <= rg Gm k) ->
  forms_ok o sg Gm.
Proof.
  intros (_ & _ & C) W k x u Hk.
  set (e := times (onx o) (oE o k) x). set (l := times (onu o) (oL o k) u).
  assert (Ex : qform (onx o) (Qh o sg Gm k) x = bil (onx o) (onx o) (cQ o k) x x +
            sg * rsum (onx o) (fun i => x i * x i) +
            rsum (onc o) (fun c => rg Gm (k * onc o + c) * (e c * e c))).
  { rewrite qform_times, bil_times.
    rewrite (rsum_ext (onx o) _ (fun i => x i * times (onx o) (cQ o k) x i + (sg * (x i * x i) +
       x i * ttimes (onc o) (oE o k) (fun c => rg Gm (k * onc o + c) * e c) i)))
      by (intros i Hi; rewrite Qh_times by exact Hi; unfold e; ring).
    rewrite !rsum_add, rsum_scal, ttimes_dot. fold e.
    rewrite (rsum_ext (onc o) _ (fun c => rg Gm (k * onc o + c) * (e c * e c))) by (intros; ring). ring. }
  assert (Eu : qform (onu o) (Rh o sg Gm k) u = bil (onu o) (onu o) (cR o k) u u +
            sg * rsum (onu o) (fun i => u i * u i) +
            rsum (onc o) (fun c => rg Gm (k * onc o + c) * (l c * l c))).
  { rewrite qform_times, bil_times.
    rewrite (rsum_ext (onu o) _ (fun i => u i * times (onu o) (cR o k) u i + (sg * (u i * u i) +
       u i * ttimes (onc o) (oL o k) (fun c => rg Gm (k * onc o + c) * l c) i)))
      by (intros i Hi; rewrite Rh_times by exact Hi; unfold l; ring).
    rewrite !rsum_add, rsum_scal, ttimes_dot. fold l.
    rewrite (rsum_ext (onc o) _ (fun c => rg Gm (k * onc o + c) * (l c * l c))) by (intros; ring). ring. }
  assert (Es : rsum (onu o) (fun i => u i * times (onx o) (Sh o Gm k) x i) = bil (onu o) (onx o) (cS o k) u x +
            rsum (onc o) (fun c => rg Gm (k * onc o + c) * (l c * e c))).
  { rewrite bil_times.
    rewrite (rsum_ext (onu o) _ (fun i => u i * times (onx o) (cS o k) x i +
       u i * ttimes (onc o) (oL o k) (fun c => rg Gm (k * onc o + c) * e c) i))
      by (intros i Hi; rewrite Sh_times; unfold e; ring).
    rewrite !rsum_add, ttimes_dot. fold l.
    rewrite (rsum_ext (onc o) _ (fun c => rg Gm (k * onc o + c) * (l c * e c))) by (intros; ring). ring. }
  rewrite Ex, Eu, Es.
  assert (Cv := C k x u Hk).
  assert (X : 0 <= rsum (onc o) (fun c => rg Gm (k * onc o + c) * ((e c + l c) * (e c + l c)))).
  { apply rsum_nonneg. intros c Hc. apply Rmult_le_pos; [apply W; cbn [n_v ocp_qp]; nia|apply Rle_0_sqr]. }
  rewrite (rsum_ext (onc o) _ (fun c => rg Gm (k * onc o + c) * (e c * e c) +
     (2 * (rg Gm (k * onc o + c) * (l c * e c)) + rg Gm (k * onc o + c) * (l c * l c)))) in X by (intros; ring).
  rewrite !rsum_add, rsum_scal in X. lra.
Qed.

(* ---------- C35 ---------- *)

(* a solver object ready for problem data of its size; it holds for a freshly constructed object
   after SetAlpha and LinkData, see C35_ready *)
Definition riccati_solver_ready (c : ricc R) (d : mpc_data R) (al : R) : Prop :=
  rc_N c = md_N d /\ rc_nx c = md_nx d /\ rc_nu c = md_nu d /\ rc_nc c = md_nc d /\
  rc_nz c = md_nz d /\ rc_nl c = md_nl d /\ rc_nv c = md_nv d /\
  rc_alpha c = al /\ rc_data c = PLive d /\
  length (rc_ws c) = (md_N d + 1)%nat /\ Forall (stage_ok (md_nx d) (md_nu d)) (rc_ws c).

Section C35.
  Context (LA : LinAlg R) (LL : LALaws LA).
  Context (qp : mpc_ref R) (d : mpc_data R).
  Hypothesis V : seqs_valid qp.
  Hypothesis SC : single_columns qp.
  Hypothesis Hctor : MpcData_ctor Rops qp = Ok d.
  Notation o := (ocp_of qp). Notation P := (ocp_qp o).
  Notation pt := (at_point d (n_z P) (n_l P) (n_v P)).
  Notation vok := (var_ok (n_z P) (n_l P) (n_v P)).
  Notation rok := (rsd_ok (n_z P) (n_l P) (n_v P)).

  Lemma ready_m c al : riccati_solver_ready c d al <-> m_ready d (oN o) (onx o) (onu o) (onc o) al c.
  Proof.
    destruct (mpc_built qp d V SC Hctor) as (K & _ & _).
    destruct K as [EN Ex Eu Ec Ez El Ev _ _ _ _ _ _ _ _ _ _ _ _].
    unfold riccati_solver_ready, m_ready, m_lsize, nz, nl, nv. rewrite EN, Ex, Eu, Ec, Ez, El, Ev. tauto.
  Qed.

  (* the constructor called with the sizes of the data *)
  Theorem C35_ready : forall g al c,
    RiccatiLinearSolver_ctor Rops (Z.of_nat (md_N d)) (Z.of_nat (md_nx d)) (Z.of_nat (md_nu d))
      (Z.of_nat (md_nc d)) g = Ok c ->
    riccati_solver_ready (rc_link (PLive d) (rc_setalpha al c)) d al.
  Proof.
    intros g al c E. apply ready_m.
    destruct (mpc_built qp d V SC Hctor) as (K & _ & _).
    destruct K as [EN Ex Eu Ec Ez El Ev _ _ _ _ _ _ _ _ _ _ _ _]. rewrite EN, Ex, Eu, Ec in E.
    unfold RiccatiLinearSolver_ctor in E.
    destruct (negb _); cbn [throw_unless rbind] in E; [|discriminate].
    unfold iadd, imul in E.
    repeat (match type of E with context [in_int ?z] => destruct (in_int z); cbn [ub_unless rbind] in E; [|discriminate] end).
    injection E as <-. unfold m_ready, m_lsize, nz, nl, nv; cbn.
    assert (F : forall n, Forall (stage_ok (onx o) (onu o)) (tab n (fun i : nat =>
        mkStage (mtab (onx o) (onx o) (g (9 * i)%nat)) (mtab (onu o) (onu o) (g (9 * i + 1)%nat))
                        (mtab (onu o) (onx o) (g (9 * i + 2)%nat)) (mtab (onx o) (onu o) (g (9 * i + 3)%nat))
                        (mtab (onu o) (onu o) (g (9 * i + 4)%nat)) (mtab (onx o) (onx o) (g (9 * i + 5)%nat))
                        (mtab (onx o) (onx o) (g (9 * i + 6)%nat)) (mtab (onu o) (onx o) (g (9 * i + 7)%nat))
                        (mtab (onx o) (onx o) (g (9 * i + 8)%nat))))).
    { intro n. apply Forall_forall. intros st Hst. unfold tab in Hst. apply in_map_iff in Hst.
      destruct Hst as (k & <- & _). unfold stage_ok; cbn. auto 10. }
    rewrite tab_length, !Nat2Z.id.
    replace (Z.to_nat (Z.of_nat (oN o) + 1)) with (oN o + 1)%nat by lia.
    repeat split; try (cbn; lia); try apply F.
  Qed.

  (* whenever Initialize reports success, Solve returns the Newton step of the explicit QP *)
  Theorem C35_riccati_newton_step : forall c al sg x xb c',
    riccati_solver_ready c d al -> 0 < al < 1 -> vok x -> vok xb ->
    (forall k i j, (k < oN o + 1)%nat -> (i < onx o)%nat -> (j < onx o)%nat -> cQ o k i j = cQ o k j i) ->
    (forall k i j, (k < oN o + 1)%nat -> (i < onu o)%nat -> (j < onu o)%nat -> cR o k i j = cR o k j i) ->
    rc_init Rops LA c (pt x) (pt xb) sg = (c', Ok true) ->
    forall r dx, rok r -> vok dx -> exists dx',
      rc_solve Rops LA c' (mkFres (n_z P) (n_l P) (n_v P) r al (PLive d)) (Some (pt dx)) = Ok (true, pt dx') /\
      vok dx' /\
      newton_system P sg (rg (w_gamma Rops al sg x xb (n_v P))) (rg (w_mus Rops al sg x xb (n_v P)))
        (rg (v_z dx')) (rg (v_l dx')) (rg (v_v dx')) (rg (r_z r)) (rg (r_l r)) (rg (r_v r)) /\
      forall k, (k < n_v P)%nat -> rg (v_y dx') k = margin P (rg (v_z dx')) k.
  Proof.
    intros c al sg x xb c' Re Hal Vx Vb SQ SR E r dx Hr Vd.
    apply ready_m in Re.
    destruct (mpc_built qp d V SC Hctor) as (K & Ds & _).
    destruct (lo_init _ _ _ _ _ _ _ _ _ (mpc_ls_ok Rops LA R_zero_eq d _ _ _ _ K) al sg c x xb Re Vx Vb) as (l' & I1 & I2 & I3).
    cbn [mpcLS ls_init] in I1.
    change (rc_init Rops LA c (pt x) (pt xb) sg = (l', m_pinit Rops LA d (oN o) (onx o) (onu o) (onc o) al sg x xb)) in I1.
    rewrite E in I1. injection I1 as -> I1. symmetry in I1.
    destruct (I3 I1 r dx Hr Vd) as [S1 S2]. cbn [mpcLS ls_solve] in S1.
    assert (Hf : 0 < sg /\ m_fact Rops LA d (oN o) (onx o) (onu o) (onc o) al sg x xb <> None).
    { unfold m_pinit in I1. change (o_leb Rops sg (o_zero Rops)) with (Rleb sg 0) in I1. destruct (Rleb sg 0) eqn:EL; [discriminate|].
      apply Rleb_false in EL. split; [exact EL|]. intro Z.
      change (Ok (match m_fact Rops LA d (oN o) (onx o) (onu o) (onc o) al sg x xb with Some _ => true | None => false end) = Ok true) in I1.
      rewrite Z in I1. discriminate. }
    destruct Hf as [Hsg Hf].
    eexists. split; [exact S1|]. split; [exact S2|].
    destruct (riccati_newton LA LL d o K Ds (mpc_explicit qp d V SC Hctor) al sg x xb Hal Hsg SQ SR r Hf Hr)
      as (N1 & N2 & N3).
    split; [exact N1|]. exact N3.
  Qed.

  (* for stage-wise convex problems Initialize always reports success *)
  Theorem C35_convex_init : forall c al sg x xb,
    riccati_solver_ready c d al -> 0 < al < 1 -> 0 < sg -> vok x -> vok xb -> stagewise_convex o ->
    exists c', rc_init Rops LA c (pt x) (pt xb) sg = (c', Ok true) /\ riccati_solver_ready c' d al.
  Proof.
    intros c al sg x xb Re Hal Hsg Vx Vb C.
    apply ready_m in Re.
    destruct (mpc_built qp d V SC Hctor) as (K & Ds & _).
    destruct (lo_init _ _ _ _ _ _ _ _ _ (mpc_ls_ok Rops LA R_zero_eq d _ _ _ _ K) al sg c x xb Re Vx Vb) as (l' & I1 & I2 & I3).
    exists l'. split; [|apply ready_m; exact I2].
    cbn [mpcLS ls_init] in I1.
    change (rc_init Rops LA c (pt x) (pt xb) sg = (l', m_pinit Rops LA d (oN o) (onx o) (onu o) (onc o) al sg x xb)) in I1.
    rewrite I1. f_equal. unfold m_pinit. change (o_leb Rops sg (o_zero Rops)) with (Rleb sg 0).
    assert (X : Rleb sg 0 = false) by (apply Rleb_false; lra). rewrite X. f_equal.
    destruct (fact_some LA LL d o K Ds al sg x xb Hsg) as [sts ->]; [apply C|apply C| |reflexivity].
    apply stage_forms; [exact C|]. intros k Hk.
    destruct (C33_weights al sg x xb (n_v P) Hal Hsg) as (_ & _ & _ & W). apply W. exact Hk.
  Qed.

  Theorem C35_convex_step : forall c al sg x xb r dx,
    riccati_solver_ready c d al -> 0 < al < 1 -> 0 < sg -> vok x -> vok xb -> stagewise_convex o -> rok r -> vok dx ->
    exists c' dx', rc_init Rops LA c (pt x) (pt xb) sg = (c', Ok true) /\
      rc_solve Rops LA c' (mkFres (n_z P) (n_l P) (n_v P) r al (PLive d)) (Some (pt dx)) = Ok (true, pt dx') /\
      vok dx' /\
      newton_system P sg (rg (w_gamma Rops al sg x xb (n_v P))) (rg (w_mus Rops al sg x xb (n_v P)))
        (rg (v_z dx')) (rg (v_l dx')) (rg (v_v dx')) (rg (r_z r)) (rg (r_l r)) (rg (r_v r)) /\
      forall k, (k < n_v P)%nat -> rg (v_y dx') k = margin P (rg (v_z dx')) k.
  Proof.
    intros c al sg x xb r dx Re Hal Hsg Vx Vb C Hr Vd.
    destruct (C35_convex_init c al sg x xb Re Hal Hsg Vx Vb C) as (c' & I1 & _).
    exists c'. destruct (C35_riccati_newton_step c al sg x xb c' Re Hal Vx Vb) with (r := r) (dx := dx)
      as (dx' & S1 & S2 & S3 & S4); try assumption; try apply C.
    exists dx'. auto.
  Qed.
End C35.
Print Assumptions C35_ready.
Print Assumptions C35_riccati_newton_step.
Print Assumptions C35_convex_init.
Print Assumptions C35_convex_step.
