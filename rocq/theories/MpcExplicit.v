(* The OCP of a problem is read straight off the memory its sequences point to; an MpcData object
   over the reals behaves as the explicit QP of that OCP. *)
From Verif Require Export MpcR.
Local Open Scope R_scope.

(* entry (i,j) of matrix k of a sequence: matrices one after the other, each column-major *)
Definition cell (s : mapseq R) (k i j : nat) : R :=
  match mp_mem s with
  | None => 0
  | Some mem => nth (k * (Z.to_nat (mp_nr s) * Z.to_nat (mp_nc s)) + j * Z.to_nat (mp_nr s) + i) mem 0
  end.

Definition ocp_of (m : mpc_ref R) : OCP := {|
  oN := Z.to_nat (mp_N (m_B m)); onx := Z.to_nat (mp_nr (m_B m));
  onu := Z.to_nat (mp_nc (m_B m)); onc := Z.to_nat (mp_nr (m_E m));
  cQ := cell (m_Q m); cR := cell (m_R m); cS := cell (m_S m);
  cq := fun k i => cell (m_q m) k i 0; cr := fun k i => cell (m_r m) k i 0;
  oA := cell (m_A m); oB := cell (m_B m); oc := fun k i => cell (m_c m) k i 0;
  oE := cell (m_E m); oL := cell (m_L m); od := fun k i => cell (m_d m) k i 0;
  ox0 := fun i => nth i (m_x0 m) 0 |}.

Lemma nth_firstn_lt {A} (l : list A) n k x : (k < n)%nat -> nth k (firstn n l) x = nth k l x.
Proof.
  revert n k. induction l as [|a l IH]; intros [|n] [|k] H; cbn; try lia; auto. apply IH. lia.
Qed.
Lemma nth_skipn {A} (l : list A) n k x : nth k (skipn n l) x = nth (n + k) l x.
Proof. revert n. induction l as [|a l IH]; intros [|n]; cbn; auto; destruct k; auto. Qed.

Lemma stg_cells s n r c k : seq_valid s -> sok s n r c -> (k < n)%nat ->
  (forall i j, (i < r)%nat -> (j < c)%nat -> rm (stg s k) i j = cell s k i j) /\
  length (me (stg s k)) = (r * c)%nat.
Proof.
  intros (V1 & V2 & V3 & V4 & V5) S Hk. destruct (sok_stg s n r c k S Hk) as (E & Er & Ec).
  unfold at_, mapseq_at in E.
  destruct ((Z.of_nat k <? 0)%Z || (mp_N s <=? Z.of_nat k)%Z) eqn:B; cbn [negb throw_unless rbind] in E; [discriminate|].
  destruct (mp_mem s) as [mem|] eqn:EM; [|discriminate].
  assert (HN : (0 < mp_N s)%Z). { apply orb_false_iff in B. rewrite Z.ltb_ge, Z.leb_gt in B. lia. }
  destruct (V5 HN) as (mem' & EM' & LM). injection EM' as <-.
  unfold view in E. apply rbind_ok in E. destruct E as (p & Ep & E). apply imul_ok in Ep.
  apply rbind_ok in E. destruct E as (off & Eo & E). apply imul_ok in Eo.
  apply rbind_ok in E. destruct E as ([] & Eu & E). injection E as E.
  assert (Hoff : Z.to_nat off = (k * (Z.to_nat (mp_nr s) * Z.to_nat (mp_nc s)))%nat).
  { subst off p. rewrite !Z2Nat.inj_mul by nia. rewrite Nat2Z.id. lia. }
  destruct (_ <=? _)%nat eqn:Lu in Eu; [|discriminate]. apply Nat.leb_le in Lu.
  rewrite <- E in Er, Ec |- *. cbn [mr mc me] in *.
  assert (Lm : length (firstn (Z.to_nat (mp_nr s) * Z.to_nat (mp_nc s)) (skipn (Z.to_nat off) mem)) = (r * c)%nat).
  { rewrite firstn_length, skipn_length. rewrite Er, Ec in *. lia. }
  split; [|exact Lm].
  intros i j Hi Hj. unfold mget. cbn [mr me]. unfold cell. rewrite EM, <- Er, <- Ec in *.
  unfold vget. rewrite nth_firstn_lt by nia. rewrite nth_skipn, Hoff. f_equal. lia.
Qed.

Lemma msqnorm_col M n : length (me M) = (n * 1)%nat -> mr M = n ->
  msqnorm Rops M = rsum n (fun i => rm M i 0 * rm M i 0).
Proof.
  intros L R. unfold msqnorm. cbn [o_dot Rops]. rewrite Rdot_rsum by reflexivity. rewrite L, Nat.mul_1_r.
  apply rsum_ext. intros i Hi. unfold mget. rewrite R. cbn [Nat.mul Nat.add]. reflexivity.
Qed.

Section Build.
  Variables (qp : mpc_ref R) (d : mpc_data R).
  Hypothesis V : seqs_valid qp.
  Hypothesis C : single_columns qp.
  Hypothesis E : MpcData_ctor Rops qp = Ok d.
  Notation o := (ocp_of qp).

  Lemma mpc_built : mpc_ok d (oN o) (onx o) (onu o) (onc o) /\ describes d o /\ md_m d = qp.
  Proof.
    destruct (mpc_ctor_ok Rops qp d V C E) as (K & Em & E1 & E2 & E3 & E4).
    assert (F1 : md_N d = oN o) by (cbn; lia). assert (F2 : md_nx d = onx o) by (cbn; lia).
    assert (F3 : md_nu d = onu o) by (cbn; lia). assert (F4 : md_nc d = onc o) by (cbn; lia).
    rewrite F1, F2, F3, F4 in K. split; [exact K|]. split; [|exact Em].
    destruct K as [EN Ex Eu Ec Ez El Ev HQ HR HS Hq Hr HA HB Hc HE HL HD Hx0].
    destruct V as [VQ VR VS Vq Vr VA VB Vc VE VL Vd]. rewrite Em in *.
    constructor; auto; rewrite ?Em; intros.
    - apply (stg_cells _ _ _ _ k VQ HQ); assumption.
    - apply (stg_cells _ _ _ _ k VR HR); assumption.
    - apply (stg_cells _ _ _ _ k VS HS); assumption.
    - apply (stg_cells _ _ _ _ k Vq Hq); try assumption; lia.
    - apply (stg_cells _ _ _ _ k Vr Hr); try assumption; lia.
    - apply (stg_cells _ _ _ _ k VA HA); assumption.
    - apply (stg_cells _ _ _ _ k VB HB); assumption.
    - apply (stg_cells _ _ _ _ k Vc Hc); try assumption; lia.
    - apply (stg_cells _ _ _ _ k VE HE); assumption.
    - apply (stg_cells _ _ _ _ k VL HL); assumption.
    - apply (stg_cells _ _ _ _ k Vd HD); try assumption; lia.
    - reflexivity.
  Qed.

  (* the accumulation of ForcingNorm *)
  Lemma sum_loop (f : nat -> R -> res R) (inc : nat -> R) n : forall i s,
    (forall j s, (i <= j < i + n)%nat -> f j s = Ok (s + inc j)) ->
    for_from n i f s = Ok (s + rsum n (fun j => inc (i + j)%nat)).
  Proof.
    induction n as [|n IH]; intros i s H; cbn [for_from]; [cbn; f_equal; lra|].
    rewrite H by lia. cbn [rbind]. rewrite IH by (intros; apply H; lia). f_equal.
    rewrite rsum_first. rewrite Nat.add_0_r. rewrite (rsum_ext n _ (fun j => inc (i + S j)%nat)); [lra|].
    intros. f_equal. lia.
  Qed.

  Lemma mpc_fnorm : md_fnorm d =
    sqrt (rsum (n_z (ocp_qp o)) (fun i => cf (ocp_qp o) i * cf (ocp_qp o) i) +
          rsum (n_l (ocp_qp o)) (fun i => ch (ocp_qp o) i * ch (ocp_qp o) i) +
          rsum (n_v (ocp_qp o)) (fun i => cb (ocp_qp o) i * cb (ocp_qp o) i)).
  Proof.
    destruct mpc_built as (K & S & Em).
    destruct K as [EN Ex Eu Ec Ez El Ev HQ HR HS Hq Hr HA HB Hc HE HL HD Hx0].
    destruct S as [_ _ _ _ SQ SR SS Sq Sr SA SB Sc SE SL SD Sx0]. rewrite Em in *.
    destruct V as [VQ VR VS Vq Vr VA VB Vc VE VL Vd].
    pose proof E as H. unfold MpcData_ctor in H.
    do 6 (apply rbind_ok in H; let a := fresh "a" in let F := fresh "F" in destruct H as (a & F & H)).
    apply rbind_ok in H. destruct H as (s & Fs & H). injection H as <-. cbn [md_fnorm]. cbn [o_sqrt Rops].
    f_equal. unfold for_n in Fs.
    set (inc := fun k => rsum (onx o) (fun i => cq o k i * cq o k i) + rsum (onu o) (fun i => cr o k i * cr o k i)
      + rsum (onc o) (fun i => od o k i * od o k i)
      + match k with O => rsum (onx o) (fun i => ox0 o i * ox0 o i) | S k' => rsum (onx o) (fun i => oc o k' i * oc o k' i) end).
    change (Z.to_nat (mp_N (m_B qp))) with (oN o) in *.
    rewrite (sum_loop _ inc) in Fs.
    - injection Fs as <-. cbn [o_zero Rops Nat.add]. unfold inc. rewrite !rsum_add.
      change (n_z (ocp_qp o)) with ((oN o + 1) * (onx o + onu o))%nat.
      change (n_l (ocp_qp o)) with ((oN o + 1) * onx o)%nat.
      change (n_v (ocp_qp o)) with ((oN o + 1) * onc o)%nat. rewrite !rsum_blocks.
      assert (Z1 : rsum (oN o + 1) (fun i => rsum (onx o + onu o) (fun j =>
          cf (ocp_qp o) (i * (onx o + onu o) + j)%nat * cf (ocp_qp o) (i * (onx o + onu o) + j)%nat)) =
        rsum (oN o + 1) (fun k => rsum (onx o) (fun i => cq o k i * cq o k i)) +
        rsum (oN o + 1) (fun k => rsum (onu o) (fun i => cr o k i * cr o k i))).
      { rewrite <- rsum_add. apply rsum_ext. intros k Hk. rewrite rsum_split. f_equal; apply rsum_ext; intros i Hi.
        - rewrite f_x by exact Hi. reflexivity.
        - replace (k * (onx o + onu o) + (onx o + i))%nat with (k * (onx o + onu o) + onx o + i)%nat by lia.
          rewrite f_u by exact Hi. reflexivity. }
      assert (Z2 : rsum (oN o + 1) (fun k => rsum (onx o) (fun i =>
          ch (ocp_qp o) (k * onx o + i)%nat * ch (ocp_qp o) (k * onx o + i)%nat)) =
        rsum (oN o + 1) (fun k => match k with O => rsum (onx o) (fun i => ox0 o i * ox0 o i)
                                          | S k' => rsum (onx o) (fun i => oc o k' i * oc o k' i) end)).
      { apply rsum_ext. intros [|k] Hk; apply rsum_ext; intros i Hi.
        - cbn [Nat.mul Nat.add]. rewrite h_0 by exact Hi. ring.
        - rewrite h_S by exact Hi. ring. }
      assert (Z3 : rsum (oN o + 1) (fun k => rsum (onc o) (fun i =>
          cb (ocp_qp o) (k * onc o + i)%nat * cb (ocp_qp o) (k * onc o + i)%nat)) =
        rsum (oN o + 1) (fun k => rsum (onc o) (fun i => od o k i * od o k i))).
      { apply rsum_ext. intros k Hk; apply rsum_ext; intros i Hi. rewrite b_row by exact Hi. ring. }
      rewrite Z1, Z2, Z3. change (Z.to_nat (mp_N (m_B qp))) with (oN o). lra.
    - intros k s0 Hk.
      destruct (sok_stg _ _ _ _ k Hq) as (Q1 & Q2 & Q3); [lia|]. rewrite Q1. cbn [rbind].
      destruct (sok_stg _ _ _ _ k Hr) as (R1 & R2 & R3); [lia|]. rewrite R1. cbn [rbind].
      destruct (sok_stg _ _ _ _ k HD) as (D1 & D2 & D3); [lia|]. rewrite D1. cbn [rbind].
      cbn [o_add Rops].
      rewrite (msqnorm_col _ (onx o)) by (auto; apply (stg_cells _ _ _ _ k Vq Hq); lia).
      rewrite (msqnorm_col _ (onu o)) by (auto; apply (stg_cells _ _ _ _ k Vr Hr); lia).
      rewrite (msqnorm_col _ (onc o)) by (auto; apply (stg_cells _ _ _ _ k Vd HD); lia).
      rewrite (rsum_ext (onx o) _ (fun i => cq o k i * cq o k i)) by (intros; rewrite Sq by (assumption || lia); reflexivity).
      rewrite (rsum_ext (onu o) _ (fun i => cr o k i * cr o k i)) by (intros; rewrite Sr by (assumption || lia); reflexivity).
      rewrite (rsum_ext (onc o) _ (fun i => od o k i * od o k i)) by (intros; rewrite SD by (assumption || lia); reflexivity).
      destruct k as [|k]; cbn [Nat.eqb].
      + rewrite sqnorm_rsum, Hx0.
        change (rsum (onx o) (fun i => rg (m_x0 qp) i * rg (m_x0 qp) i))
          with (rsum (onx o) (fun i => ox0 o i * ox0 o i)).
        unfold inc. f_equal. lra.
      + replace (S k - 1)%nat with k by lia.
        destruct (sok_stg _ _ _ _ k Hc) as (C1 & C2 & C3); [lia|]. rewrite C1. cbn [rbind].
        assert (Zc : msqnorm Rops (stg (m_c qp) k) = rsum (onx o) (fun i => oc o k i * oc o k i)).
        { rewrite (msqnorm_col _ (onx o)) by (auto; apply (stg_cells _ _ _ _ k Vc Hc); lia).
          apply rsum_ext. intros. rewrite Sc by (assumption || lia). reflexivity. }
        rewrite Zc.
        unfold inc. f_equal. lra.
  Qed.

  Theorem mpc_explicit : Explicit (mpcDI Rops) d (ocp_qp o).
  Proof.
    destruct mpc_built as (K & S & Em).
    constructor; cbn [mpcDI di_gemvH di_gemvA di_gemvG di_gemvAT di_gemvGT di_axpyf di_axpyh di_axpyb di_fnorm]; intros.
    - apply mpcH; assumption.
    - apply mpcG; assumption.
    - apply mpcA; assumption.
    - apply mpcGT; assumption.
    - apply mpcAT; assumption.
    - apply mpcf; assumption.
    - apply mpch; assumption.
    - apply mpcb; assumption.
    - apply mpc_fnorm.
  Qed.
End Build.
